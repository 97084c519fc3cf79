(** Syntax objects: src/core/c/syntax.c and the guards of
    src/core/s/prelude.min:2280-2302. *)
From Coq Require Import ZArith NArith Bool Ascii String List Lia.
From Verif Require Import Base Heap HeapM Equal.
Import ListNotations.
Local Open Scope m_scope.

(** A NULL that is overwritten before anything looks at it. *)
Definition c_null : val := VUnbound.
Definition m_cell (v : val) : M (option cell) := fun h => HOk (cell_of h v) h.
Definition m_alloc (c : cell) : M val := fun h => HOk (VPtr (length h)) (h ++ [c]).
(** [minim_vector_ref(v, i) = x] *)
Definition m_set_vec (v : val) (i : nat) (x : val) : M unit := fun h =>
  match v with
  | VPtr l =>
      match nth_error h l with
      | Some (CVec xs) =>
          if Nat.ltb i (length xs) then HOk tt (upd_cell l (CVec (firstn i xs ++ x :: skipn (S i) xs)) h) else HUndef
      | _ => HUndef
      end
  | _ => HUndef
  end.
Definition out_of_fuel {A} : M A := fun _ => HFuel.

Section Loops.
  Variable rec : val -> M val.
  (** The loop of pair_to_syntax and what follows it, syntax.c:20-29. *)
  Fixpoint pair_loop (n : nat) (it tl : val) : M unit :=
    match n with
    | O => out_of_fuel
    | S n =>
        c <- m_cell it;;
        match c with
        | Some (CPair a d) =>
            x <- rec a;; p <- m_cons x c_null;; m_set_cdr tl p;;; pair_loop n d p
        | _ =>
            if nullp it then m_set_cdr tl VNull else (x <- rec it;; m_set_cdr tl x)
        end
    end.
  (** The loops of vector_to_syntax and strip_vector, syntax.c:37-38 and 45-46.
      The vector that is read is not written by the loop, so its elements are
      taken once. *)
  Fixpoint vec_loop (w : val) (i : nat) (xs : list val) : M unit :=
    match xs with
    | [] => ret tt
    | x :: r => y <- rec x;; m_set_vec w i y;;; vec_loop w (S i) r
    end.
End Loops.

(** to_syntax, syntax.c:75-89, with pair_to_syntax (16-32) and vector_to_syntax
    (35-40) in place.  [datum->syntax], prim.c:165. *)
Fixpoint to_syntax (f : nat) (v : val) : M val :=
  match f with
  | O => out_of_fuel
  | S f =>
      c <- m_cell v;;
      match c with
      | Some (CSyntax _ _) => ret v
      | Some (CPair a d) =>
          x <- to_syntax f a;; hd <- m_cons x c_null;; pair_loop (to_syntax f) f d hd;;; m_alloc (CSyntax hd VFalse)
      | Some (CVec xs) =>
          w <- m_alloc (CVec (repeat c_null (length xs)));; vec_loop (to_syntax f) w 0 xs;;; m_alloc (CSyntax w VFalse)
      | Some (CBox y) => x <- to_syntax f y;; b <- m_alloc (CBox x);; m_alloc (CSyntax b VFalse)
      | _ => m_alloc (CSyntax v VFalse)
      end
  end.

(** strip_syntax, syntax.c:92-106, with strip_vector (43-48).  C leaves the order
    of the two recursive calls open; the model strips the car first. *)
Fixpoint strip_syntax (f : nat) (v : val) : M val :=
  match f with
  | O => out_of_fuel
  | S f =>
      c <- m_cell v;;
      match c with
      | Some (CSyntax e _) => strip_syntax f e
      | Some (CPair a d) => x <- strip_syntax f a;; y <- strip_syntax f d;; m_cons x y
      | Some (CBox y) => x <- strip_syntax f y;; m_alloc (CBox x)
      | Some (CVec xs) => w <- m_alloc (CVec (repeat c_null (length xs)));; vec_loop (strip_syntax f) w 0 xs;;; ret w
      | _ => ret v
      end
  end.

(** syntax_strip_once, syntax.c:51-53 *)
Definition strip_once (h : heap) (v : val) : val :=
  match cell_of h v with Some (CSyntax e _) => e | _ => v end.
Definition m_strip_once (v : val) : M val := fun h => HOk (strip_once h v) h.
(** The loop of syntax_to_list, syntax.c:116-127. *)
Fixpoint list_loop (n : nat) (it hd tl : val) : M val :=
  match n with
  | O => out_of_fuel
  | S n =>
      c <- m_cell it;;
      match c with
      | Some (CPair a d) =>
          p <- m_cons a c_null;; m_set_cdr tl p;;; it' <- m_strip_once d;; list_loop n it' hd p
      | _ => if nullp it then (m_set_cdr tl VNull;;; ret hd) else ret VFalse
      end
  end.
(** syntax_to_list, syntax.c:108-133 *)
Definition syntax_to_list (n : nat) (stx : val) : M val :=
  it <- m_strip_once stx;;
  c <- m_cell it;;
  match c with
  | Some (CPair a d) => hd <- m_cons a c_null;; it' <- m_strip_once d;; list_loop n it' hd hd
  | _ => if nullp it then ret it else ret VFalse
  end.

(** syntaxp_proc, syntax.c:59-62 *)
Definition syntaxp (h : heap) (v : val) : bool := match cell_of h v with Some (CSyntax _ _) => true | _ => false end.
(** The guards [(if (syntax? stx) ... (raise-argument-error ...))],
    prelude.min:2280-2302. *)
Definition guarded (who : string) (k : val -> M val) (v : val) : M val := fun h =>
  if syntaxp h v then k v h else HErr (EArg who v) h.
Definition syntax_e : val -> M val := guarded "syntax-e" (fun v h => match cell_of h v with Some (CSyntax e _) => HOk e h | _ => HUndef end).
Definition syntax_loc : val -> M val := guarded "syntax-loc" (fun v h => match cell_of h v with Some (CSyntax _ l) => HOk l h | _ => HUndef end).
Definition syntax_to_datum (f : nat) : val -> M val := guarded "syntax->datum" (strip_syntax f).
Definition syntax_list (f : nat) : val -> M val := guarded "syntax->list" (syntax_to_list f).
