(** Model of lists: src/core/c/list.c:15-71, 230-312,
    src/core/s/prelude.min:921-1099 and src/library/private/list.min.

    Procedure arguments are arbitrary heap programs.  Every loop carries fuel;
    [HFuel] is excluded by each theorem's statement. *)
From Coq Require Import ZArith NArith Bool Ascii String List Lia.
From Verif Require Import Base Outcome Arith Heap HeapM Equal.
Import ListNotations.
Local Open Scope string_scope.
Local Open Scope m_scope.

(** minim_listp, list.c:15-19 ([list?]). *)
Fixpoint listp (fuel : nat) (h : heap) (v : val) : option bool :=
  match pair_at h v with
  | Some (_, d) => match fuel with O => None | S f => listp f h d end
  | None => Some (nullp v)
  end.
Definition m_listp (fuel : nat) (v : val) : M bool := fun h =>
  match listp fuel h v with Some b => HOk b h | None => HFuel end.

(** list_length, list.c:46-51; the C [long] counter cannot overflow (each pair
    takes memory). *)
Fixpoint list_length (fuel : nat) (v : val) (n : Z) : M Z := fun h =>
  match pair_at h v with
  | Some (_, d) => match fuel with O => HFuel | S f => list_length f d (n + 1) h end
  | None => HOk n h
  end.

(** make_list, list.c:21-27. *)
Fixpoint make_list (n : nat) (init lst : val) : M val :=
  match n with
  | O => ret lst
  | S m => p <- m_cons init lst ;; make_list m init p
  end.

(** list_reverse, list.c:53-58. *)
Fixpoint list_reverse (fuel : nat) (xs ys : val) : M val :=
  if nullp xs then ret ys
  else match fuel with
       | O => fun _ => HFuel
       | S f => a <- m_car xs ;; p <- m_cons a ys ;; d <- m_cdr xs ;; list_reverse f d p
       end.

(** The loop shared by copy_list (list.c:36-39) and list_append2
    (list.c:262-265): extend the list ending in [tl] with the elements of [it].
    The model's placeholder for the cdr to be filled in is void (the code uses
    NULL or the empty list). *)
Fixpoint copy_loop (fuel : nat) (it tl : val) : M val :=
  if nullp it then ret tl
  else match fuel with
       | O => fun _ => HFuel
       | S f => a <- m_car it ;; p <- m_cons a VVoid ;; m_set_cdr tl p ;;; d <- m_cdr it ;; copy_loop f d p
       end.

(** list_append2, list.c:254-270. *)
Definition append2 (fuel : nat) (xs ys : val) : M val :=
  if nullp xs then ret ys
  else a <- m_car xs ;; hd <- m_cons a VVoid ;; it <- m_cdr xs ;;
       tl <- copy_loop fuel it hd ;; m_set_cdr tl ys ;;; ret hd.

(** copy_list, list.c:30-44. *)
Definition copy_list (fuel : nat) (xs : val) : M val :=
  if nullp xs then ret xs
  else a <- m_car xs ;; hd <- m_cons a VVoid ;; it <- m_cdr xs ;;
       tl <- copy_loop fuel it hd ;; m_set_cdr tl VNull ;;; ret hd.

(** assq_ref and assq_set, list.c:281-312: association lists with eq? keys. *)
Fixpoint assq_ref (fuel : nat) (xs k : val) : M val :=
  if nullp xs then ret VFalse
  else match fuel with
       | O => fun _ => HFuel
       | S f => c <- m_car xs ;; k' <- m_car c ;;
                if eqp k' k then ret c else (d <- m_cdr xs ;; assq_ref f d k)
       end.

(** memq, list.c:272-279. *)
Fixpoint memq (fuel : nat) (xs k : val) : M val :=
  if nullp xs then ret VFalse
  else match fuel with
       | O => fun _ => HFuel
       | S f => a <- m_car xs ;; if eqp a k then ret xs else (d <- m_cdr xs ;; memq f d k)
       end.

Fixpoint assq_set_loop (fuel : nat) (xs tl k v : val) : M unit :=
  if nullp xs then (c <- m_cons k v ;; p <- m_cons c VNull ;; m_set_cdr tl p)
  else match fuel with
       | O => fun _ => HFuel
       | S f =>
           c <- m_car xs ;; k' <- m_car c ;;
           if eqp k' k
           then (c' <- m_cons k' v ;; d <- m_cdr xs ;; p <- m_cons c' d ;; m_set_cdr tl p)
           else (p <- m_cons c VNull ;; m_set_cdr tl p ;;; d <- m_cdr xs ;; assq_set_loop f d p k v)
       end.
Definition assq_set (fuel : nat) (xs k v : val) : M val :=
  if nullp xs then (c <- m_cons k v ;; m_cons c VNull)
  else c <- m_car xs ;; k' <- m_car c ;;
       if eqp k' k then (c' <- m_cons k' v ;; d <- m_cdr xs ;; m_cons c' d)
       else (hd <- m_cons c VNull ;; d <- m_cdr xs ;; assq_set_loop fuel d hd k v ;;; ret hd).

(** ** The prelude *)

Definition truthy (v : val) : bool := match v with VFalse => false | _ => true end.
Definition of_bool (b : bool) : val := if b then VTrue else VFalse.

(** [length], [reverse], prelude.min:929-939. *)
Definition p_length (fuel : nat) (xs : val) : M val :=
  b <- m_listp fuel xs ;;
  if b : bool then (n <- list_length fuel xs 0 ;; ret (VFix n)) else fail (EArg "length" xs).
Definition p_reverse (fuel : nat) (xs : val) : M val :=
  b <- m_listp fuel xs ;; if b : bool then list_reverse fuel xs VNull else fail (EArg "reverse" xs).

(** [make-list], prelude.min:923-927. *)
Definition p_make_list (len init : val) : M val :=
  match len with
  | VFix n => if (0 <=? n)%Z then make_list (Z.to_nat n) init VNull else fail (EArg "length" len)
  | _ => fail (EArg "length" len)
  end.

(** The [loop] of [append]'s last clause, prelude.min:957-965, on the reversed
    argument list. *)
Fixpoint append_loop (fuel : nat) (acc : val) (xss : list val) : M val :=
  match xss with
  | [] => ret acc
  | xs :: r =>
      b <- m_listp fuel xs ;;
      if b : bool then (p <- append2 fuel xs acc ;; append_loop fuel p r) else fail (EArg "append" xs)
  end.
(** [append], prelude.min:941-965. *)
Definition p_append (fuel : nat) (args : list val) : M val :=
  match args with
  | [] => ret VNull
  | [xs] => b <- m_listp fuel xs ;; if b : bool then ret xs else fail (EArg "append" xs)
  | [xs; ys] =>
      b <- m_listp fuel xs ;;
      if b : bool then
        (c <- m_listp fuel ys ;; if c : bool then append2 fuel xs ys else fail (EArg "append" ys))
      else fail (EArg "append" xs)
  | _ => append_loop fuel VNull (rev args)
  end.

(** A procedure argument: takes the argument values, may raise, allocate and
    mutate. *)
Definition proc := list val -> M val.

(** [for-each1], [map1], [andmap1], [ormap1], prelude.min:968-996. *)
Fixpoint for_each1 (fuel : nat) (f : proc) (xs : val) : M val :=
  if nullp xs then ret VVoid
  else match fuel with
       | O => fun _ => HFuel
       | S n => a <- m_car xs ;; f [a] ;;; d <- m_cdr xs ;; for_each1 n f d
       end.
Fixpoint map1_loop (fuel : nat) (f : proc) (xs acc : val) : M val :=
  if nullp xs then p_reverse fuel acc
  else match fuel with
       | O => fun _ => HFuel
       | S n => d <- m_cdr xs ;; a <- m_car xs ;; r <- f [a] ;; p <- m_cons r acc ;; map1_loop n f d p
       end.
Fixpoint andmap1 (fuel : nat) (f : proc) (xs : val) : M val :=
  if nullp xs then ret VTrue
  else match fuel with
       | O => fun _ => HFuel
       | S n => a <- m_car xs ;; r <- f [a] ;;
                if truthy r then (d <- m_cdr xs ;; andmap1 n f d) else ret VFalse
       end.
Fixpoint ormap1 (fuel : nat) (f : proc) (xs : val) : M val :=
  if nullp xs then ret VFalse
  else match fuel with
       | O => fun _ => HFuel
       | S n => a <- m_car xs ;; r <- f [a] ;;
                if truthy r then ret VTrue else (d <- m_cdr xs ;; ormap1 n f d)
       end.

(** The [loop] of [check-args!], prelude.min:998-1016 ([procedure?] of the first
    argument holds here by typing). *)
Fixpoint check_args (fuel : nat) (who : string) (prev : option Z) (xss : list val) : M unit :=
  match xss with
  | [] => ret tt
  | xs :: r =>
      b <- m_listp fuel xs ;;
      if b : bool then
        (n <- list_length fuel xs 0 ;;
         if match prev with Some p => Z.eqb p n | None => true end
         then check_args fuel who (Some n) r
         else fail (EOther who [xs]))
      else fail (EArg who xs)
  end.

(** [map1 $car xss], [map1 $cdr xss] on the lists of arguments; the intermediate
    lists the code conses up are not kept in the model's heap. *)
Fixpoint cars (xss : list val) : M (list val) :=
  match xss with
  | [] => ret []
  | xs :: r => a <- m_car xs ;; l <- cars r ;; ret (a :: l)
  end.
Fixpoint cdrs (xss : list val) : M (list val) :=
  match xss with
  | [] => ret []
  | xs :: r => d <- m_cdr xs ;; l <- cdrs r ;; ret (d :: l)
  end.

(** The loops for several lists, prelude.min:1025-1072. *)
Fixpoint for_each_loop (fuel : nat) (f : proc) (xss : list val) : M val :=
  if existsb nullp xss then ret VVoid
  else match fuel with
       | O => fun _ => HFuel
       | S n => l <- cars xss ;; f l ;;; ds <- cdrs xss ;; for_each_loop n f ds
       end.
Fixpoint map_loop (fuel : nat) (f : proc) (xss : list val) (acc : val) : M val :=
  if existsb nullp xss then p_reverse fuel acc
  else match fuel with
       | O => fun _ => HFuel
       | S n => ds <- cdrs xss ;; l <- cars xss ;; r <- f l ;; p <- m_cons r acc ;; map_loop n f ds p
       end.
Fixpoint andmap_loop (fuel : nat) (f : proc) (xss : list val) : M val :=
  if existsb nullp xss then ret VTrue
  else match fuel with
       | O => fun _ => HFuel
       | S n => l <- cars xss ;; r <- f l ;;
                if truthy r then (ds <- cdrs xss ;; andmap_loop n f ds) else ret VFalse
       end.
Fixpoint ormap_loop (fuel : nat) (f : proc) (xss : list val) : M val :=
  if existsb nullp xss then ret VFalse
  else match fuel with
       | O => fun _ => HFuel
       | S n => l <- cars xss ;; r <- f l ;;
                if truthy r then ret VTrue else (ds <- cdrs xss ;; ormap_loop n f ds)
       end.

(** [for-each], [map], [andmap], [ormap], prelude.min:1018-1073. *)
Definition p_for_each (fuel : nat) (f : proc) (xs : val) (xss : list val) : M val :=
  check_args fuel "for-each" None (xs :: xss) ;;;
  match xss with [] => for_each1 fuel f xs | _ => for_each_loop fuel f (xs :: xss) end.
Definition p_map (fuel : nat) (f : proc) (xs : val) (xss : list val) : M val :=
  check_args fuel "map" None (xs :: xss) ;;;
  match xss with [] => map1_loop fuel f xs VNull | _ => map_loop fuel f (xs :: xss) VNull end.
Definition p_andmap (fuel : nat) (f : proc) (xs : val) (xss : list val) : M val :=
  check_args fuel "andmap" None (xs :: xss) ;;;
  match xss with [] => andmap1 fuel f xs | _ => andmap_loop fuel f (xs :: xss) end.
Definition p_ormap (fuel : nat) (f : proc) (xs : val) (xss : list val) : M val :=
  check_args fuel "ormap" None (xs :: xss) ;;;
  match xss with [] => ormap1 fuel f xs | _ => ormap_loop fuel f (xs :: xss) end.

(** [iota], prelude.min:1075-1086.  The counter is a fixnum between -1 and [n]. *)
Fixpoint iota_loop (fuel : nat) (n : Z) (xs : val) : M val :=
  if (n >? 0)%Z then
    match fuel with
    | O => fun _ => HFuel
    | S f => p <- m_cons (VFix n) xs ;; q <- m_cons (VFix (n - 1)) p ;; iota_loop f (n - 2) q
    end
  else if (n =? 0)%Z then m_cons (VFix 0) xs else ret xs.
Definition p_iota (fuel : nat) (n : val) : M val :=
  match n with
  | VFix z => if (0 <=? z)%Z then iota_loop fuel (z - 1) VNull else fail (EArg "iota" n)
  | _ => fail (EArg "iota" n)
  end.

(** [enumerate], prelude.min:1088-1099. *)
Fixpoint enumerate_loop (fuel : nat) (xs : val) (i : Z) (acc : val) : M val :=
  if nullp xs then list_reverse fuel acc VNull
  else match fuel with
       | O => fun _ => HFuel
       | S f => d <- m_cdr xs ;; a <- m_car xs ;; c <- m_cons a (VFix i) ;; p <- m_cons c acc ;;
                enumerate_loop f d (i + 1) p
       end.
Definition p_enumerate (fuel : nat) (xs : val) : M val :=
  b <- m_listp fuel xs ;;
  if b : bool then enumerate_loop fuel xs 0 VNull else fail (EArg "enumerate" xs).

(** ** The library, src/library/private/list.min *)

(** [cons*], list.min:18-21. *)
Fixpoint l_cons_star (x : val) (xs : list val) : M val :=
  match xs with
  | [] => ret x
  | y :: r => t <- l_cons_star y r ;; m_cons x t
  end.

(** [list-ref], list.min:52-58. *)
Fixpoint list_ref_loop (fuel : nat) (lst k : val) (n : Z) (xs : val) (i : Z) : M val :=
  if nullp xs then fail (EOther "list-ref" [k; lst])
  else if (i =? n)%Z then (fun h => if pairp h xs then m_car xs h else HErr (EArg "car" xs) h)
  else match fuel with
       | O => fun _ => HFuel
       | S f => fun h => if pairp h xs then (d <- m_cdr xs ;; list_ref_loop f lst k n d (i + 1)) h
                         else HErr (EArg "cdr" xs) h
       end.
Definition l_list_ref (fuel : nat) (lst k : val) : M val :=
  match k with
  | VFix n => if (0 <=? n)%Z then list_ref_loop fuel lst k n lst 0 else fail (EArg "list-ref" k)
  | _ => fail (EArg "list-ref" k)
  end.

Section WithEqual.
Variable ext_equal : nat -> nat -> option bool.
Variable efuel : nat.   (* fuel for [equal?] *)
Definition m_equal (a b : val) : M bool := fun h =>
  match equal_p ext_equal efuel h a b with Some r => HOk r h | None => HFuel end.
Definition if_pair (xs : val) (e : herr) (m : M val) : M val := fun h =>
  if pairp h xs then m h else HErr e h.

(** [member], list.min:62-66: returns the element, not the tail. *)
Fixpoint l_member (fuel : nat) (k xs : val) : M val :=
  if nullp xs then ret VFalse
  else match fuel with
       | O => fun _ => HFuel
       | S f =>
           if_pair xs (EArg "member" xs)
             (a <- m_car xs ;; b <- m_equal a k ;;
              if b : bool then ret a else (d <- m_cdr xs ;; l_member f k d))
       end.

(** [remove], list.min:68-74, and the inner loop of [remove*], list.min:82-87. *)
Fixpoint l_remove (fuel : nat) (who : string) (k xs : val) : M val :=
  if nullp xs then ret VNull
  else match fuel with
       | O => fun _ => HFuel
       | S f =>
           if_pair xs (EArg who xs)
             (a <- m_car xs ;; b <- m_equal a k ;;
              if b : bool then (d <- m_cdr xs ;; l_remove f who k d)
              else (d <- m_cdr xs ;; t <- l_remove f who k d ;; m_cons a t))
       end.
(** [remove*], list.min:76-87. *)
Fixpoint l_remove_star_loop (fuel : nat) (ks xs : val) : M val :=
  if nullp ks then ret xs
  else if nullp xs then ret VNull
  else match fuel with
       | O => fun _ => HFuel
       | S f => dk <- m_cdr ks ;; k <- m_car ks ;; ys <- l_remove f "remove*" k xs ;;
                l_remove_star_loop f dk ys
       end.
Definition l_remove_star (fuel : nat) (ks xs : val) : M val :=
  b <- m_listp fuel ks ;;
  if b : bool then l_remove_star_loop fuel ks xs else fail (EArg "remove*" ks).

(** [assoc], list.min:109-115. *)
Fixpoint l_assoc (fuel : nat) (k lst xs : val) : M val :=
  if nullp xs then ret VFalse
  else match fuel with
       | O => fun _ => HFuel
       | S f =>
           if_pair xs (EArg "assoc" lst)
             (c <- m_car xs ;;
              if_pair c (EArg "assoc" lst)
                (k' <- m_car c ;; b <- m_equal k k' ;;
                 if b : bool then ret c else (d <- m_cdr xs ;; l_assoc f k lst d)))
       end.

(** [index-of], list.min:117-122. *)
Fixpoint l_index_of (fuel : nat) (k xs : val) (i : Z) : M val :=
  if nullp xs then ret VFalse
  else match fuel with
       | O => fun _ => HFuel
       | S f =>
           if_pair xs (EArg "car" xs)
             (a <- m_car xs ;; b <- m_equal k a ;;
              if b : bool then ret (VFix i) else (d <- m_cdr xs ;; l_index_of f k d (i + 1)))
       end.
End WithEqual.

(** [filter], list.min:89-95. *)
Fixpoint l_filter_loop (fuel : nat) (f : proc) (lst xs acc : val) : M val :=
  if nullp xs then p_reverse fuel acc
  else match fuel with
       | O => fun _ => HFuel
       | S n =>
           if_pair xs (EArg "filter" lst)
             (a <- m_car xs ;; r <- f [a] ;;
              if truthy r then (d <- m_cdr xs ;; p <- m_cons a acc ;; l_filter_loop n f lst d p)
              else (d <- m_cdr xs ;; l_filter_loop n f lst d acc))
       end.
Definition l_filter (fuel : nat) (f : proc) (lst : val) : M val := l_filter_loop fuel f lst lst VNull.

(** [foldl] and [foldr], list.min:97-107. *)
Fixpoint l_foldl (fuel : nat) (f : proc) (lst xs acc : val) : M val :=
  if nullp xs then ret acc
  else match fuel with
       | O => fun _ => HFuel
       | S n =>
           if_pair xs (EArg "foldl" lst)
             (d <- m_cdr xs ;; a <- m_car xs ;; r <- f [acc; a] ;; l_foldl n f lst d r)
       end.
Fixpoint l_foldr (fuel : nat) (f : proc) (lst xs acc : val) : M val :=
  if nullp xs then ret acc
  else match fuel with
       | O => fun _ => HFuel
       | S n =>
           if_pair xs (EArg "foldr" lst)
             (d <- m_cdr xs ;; r <- l_foldr n f lst d acc ;; a <- m_car xs ;; f [r; a])
       end.

(** [list-set], list.min:124-132. *)
Fixpoint list_set_loop (fuel : nat) (lst k : val) (n : Z) (v xs : val) (i : Z) (acc : val) : M val :=
  if nullp xs then fail (EOther "list-set" [k; lst])
  else if (i =? n)%Z then
    if_pair xs (EArg "cdr" xs)
      (r <- p_reverse fuel acc ;; d <- m_cdr xs ;; t <- m_cons v d ;; p_append fuel [r; t])
  else match fuel with
       | O => fun _ => HFuel
       | S f =>
           if_pair xs (EArg "list-set" lst)
             (d <- m_cdr xs ;; a <- m_car xs ;; p <- m_cons a acc ;; list_set_loop f lst k n v d (i + 1) p)
       end.
Definition l_list_set (fuel : nat) (lst k v : val) : M val :=
  match k with
  | VFix n => if (0 <=? n)%Z then list_set_loop fuel lst k n v lst 0 VNull else fail (EArg "list-set" k)
  | _ => fail (EArg "list-set" k)
  end.
