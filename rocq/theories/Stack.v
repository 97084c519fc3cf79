(** The stack of the evaluator at the level of memory: segments, the frame
    pointer, the limit pointer, saved segments and continuations.
    Models src/core/c/eval.c 73-165, 195-231, 248-258, 671-701 (function by
    function below), src/core/c/frame.c and src/boot/c/boot.c 16-19. *)
From Coq Require Import NArith Bool List Arith Lia.
Import ListNotations.
Local Open Scope N_scope.
Local Open Scope list_scope.

(** minim.h 44-46: sizes in bytes. *)
Definition stack_bytes : N := 65520.
Definition slop_bytes : N := 1024.
Definition word_bytes : N := 8.

Section Stack.
  (** [V]: objects; [R]: code addresses. *)
  Variables V R : Type.
  (** [addr s]: the address, in words, of segment number [s]; used only where the
      code compares two pointers. *)
  Variable addr : nat -> N.

  (** A stack word: never written (GC_alloc), an object, or a return address
      (NULL for the outermost frame). *)
  Inductive word : Type := WNone | WVal (v : V) | WRet (r : option R).

  (** A pointer into a stack segment: segment number and offset in words. *)
  Definition ptr : Type := (nat * N)%type.
  Definition ptr_addr (p : ptr) : N := addr (fst p) + snd p.

  (** A segment: size in bytes (as passed to GC_alloc) and contents. *)
  Record segment : Type := Seg { seg_bytes : N; seg_word : N -> word }.
  (** minim.h 455-462; the environment and the procedure are kept in the
      continuation object, not on the stack, and are left out. *)
  Record scont : Type := SCont { k_sfp : ptr; k_ac : N }.
  (** minim.h 785-789.  [ss_ret] is a list of continuations: the saved chain. *)
  Record srec : Type := SRec { ss_base : nat; ss_len : N; ss_ret : list scont }.

  (** The fields of the thread that concern the stack (minim.h 795-822). *)
  Record tc : Type := Tc {
    t_ac : N; t_sfp : ptr; t_esp : N; t_cc : list scont;
    t_base : nat; t_size : N; t_link : list srec; t_mem : list segment }.

  (** boot.c 16-19 and thread.c 11-21; the esp of boot.c 19 is an address: [t_sfp]
      has type [mobj *], so that the byte count is scaled by the size of a word. *)
  Definition limit (base : nat) (bytes : N) : N := addr base + (bytes - slop_bytes).
  (** eval.c 456 stores NULL as the first return address. *)
  Definition init : tc :=
    Tc 0 (0%nat, 0) (limit 0 stack_bytes) [] 0 stack_bytes [] [Seg stack_bytes (fun i => if i =? 0 then WRet None else WNone)].

  (** Reading and writing a word: [None] if it is outside of its segment. *)
  Definition in_seg (s : segment) (i : N) : bool := (i + 1) * word_bytes <=? seg_bytes s.
  Definition read (t : tc) (p : ptr) (i : N) : option word :=
    match nth_error (t_mem t) (fst p) with
    | Some s => if in_seg s (snd p + i) then Some (seg_word s (snd p + i)) else None
    | None => None
    end.
  Fixpoint set_seg (l : list segment) (n : nat) (s : segment) : list segment :=
    match l, n with
    | [], _ => []
    | _ :: q, O => s :: q
    | x :: q, S k => x :: set_seg q k s
    end.
  Definition write (t : tc) (p : ptr) (i : N) (w : word) : option tc :=
    match nth_error (t_mem t) (fst p) with
    | Some s =>
        if in_seg s (snd p + i)
        then Some (Tc (t_ac t) (t_sfp t) (t_esp t) (t_cc t) (t_base t) (t_size t) (t_link t)
                      (set_seg (t_mem t) (fst p) (Seg (seg_bytes s) (fun j => if j =? snd p + i then w else seg_word s j))))
        else None
    | None => None
    end.
  Definition set_ac (t : tc) (n : N) : tc :=
    Tc n (t_sfp t) (t_esp t) (t_cc t) (t_base t) (t_size t) (t_link t) (t_mem t).

  (** eval.c 75-77; [words] is the size divided by the size of a word. *)
  Definition overflows (t : tc) (words : N) : bool := t_esp t <=? ptr_addr (t_sfp t) + words.
  (** eval.c 79-98 *)
  Definition grow (t : tc) (words : N) : tc :=
    let req := words * word_bytes + slop_bytes in
    let actual := if stack_bytes <? req then req else stack_bytes in
    let n := List.length (t_mem t) in
    Tc (t_ac t) (n, 0) (limit n actual) (t_cc t) n actual (SRec (t_base t) (t_size t) (t_cc t) :: t_link t)
       (t_mem t ++ [Seg actual (fun _ => WNone)]).
  (** eval.c 100-104, 114-116 *)
  Definition check (t : tc) (argc : N) : tc :=
    let w := 1 + (t_ac t + argc) in if overflows t w then grow t w else t.
  (** eval.c 118-121: tc_frame starts one word after the frame pointer. *)
  Definition push (t : tc) (v : V) : option tc :=
    match write t (t_sfp t) (1 + t_ac t) (WVal v) with
    | Some t' => Some (set_ac t' (t_ac t + 1))
    | None => None
    end.
  (** eval.c 248-258, for several values. *)
  Fixpoint push_list (t : tc) (vs : list V) : option tc :=
    match vs with
    | [] => Some t
    | v :: q => match push t v with Some t' => push_list t' q | None => None end
    end.
  (** eval.c 123-127 *)
  Definition pop (t : tc) : option (word * tc) :=
    if t_ac t =? 0 then None
    else match read t (t_sfp t) (1 + (t_ac t - 1)) with
         | Some w => Some (w, set_ac t (t_ac t - 1))
         | None => None
         end.
  (** eval.c 129-143 *)
  Definition call (t : tc) (r : R) : option tc :=
    let p := (fst (t_sfp t), snd (t_sfp t) + (1 + t_ac t)) in
    write (Tc 0 p (t_esp t) (SCont (t_sfp t) (t_ac t) :: t_cc t) (t_base t) (t_size t) (t_link t) (t_mem t)) p 0 (WRet (Some r)).
  (** eval.c 671-701.  [inl]: the evaluator returns; [inr (w, t)]: it continues
      at the address in the word [w]. *)
  Definition ret (t : tc) : option (unit + (word * tc)) :=
    let resume t cc :=
      match read t (t_sfp t) 0, cc with
      | Some w, k :: ks => Some (inr (w, Tc (k_ac k) (k_sfp k) (t_esp t) ks (t_base t) (t_size t) (t_link t) (t_mem t)))
      | _, _ => None
      end in
    if ptr_addr (t_sfp t) <=? addr (t_base t) then
      match t_link t with
      | [] => Some (inl tt)
      | s :: ss =>
          resume (Tc (t_ac t) (ss_base s, 0) (limit (ss_base s) (ss_len s)) (t_cc t) (ss_base s) (ss_len s) ss (t_mem t)) (ss_ret s)
      end
    else resume t (t_cc t).
  (** eval.c 207-230: the moves of the arguments; [elems] are the elements of the
      last argument. *)
  Fixpoint shift (n : nat) (i : N) (t : tc) : option tc :=
    match n with
    | O => Some t
    | S k =>
        match read t (t_sfp t) (1 + (i + 1)) with
        | Some w => match write t (t_sfp t) (1 + i) w with Some t' => shift k (i + 1) t' | None => None end
        | None => None
        end
    end.
  Fixpoint copy_from (from : ptr) (n : nat) (i : N) (t : tc) : option tc :=
    match n with
    | O => Some t
    | S k =>
        match read t from (i + 1) with
        | Some w => match write t (t_sfp t) (1 + i) w with Some t' => copy_from from k (i + 1) t' | None => None end
        | None => None
        end
    end.
  Definition spread (t : tc) (elems : list V) : option tc :=
    let sfp := t_sfp t in
    let ac := t_ac t in
    if ac <? 2 then None else
    match shift (N.to_nat (ac - 2)) 0 (set_ac t (ac - 2)) with
    | Some t1 =>
        let req := 1 + t_ac t1 + N.of_nat (List.length elems) in
        match (if overflows t1 req then copy_from sfp (N.to_nat ac) 0 (grow t1 req) else Some t1) with
        | Some t2 => push_list t2 elems
        | None => None
        end
    | None => None
    end.

  (** What the compiled code does with the stack. *)
  Inductive op : Type :=
  | Check (n : N) | Push (v : V) | PushAll (vs : list V) | Pop | Call (r : R) | Ret | Clear | Spread (elems : list V).
  Inductive obs : Type := Popped (v : word) | Resumed (r : word) | Exited.

  Definition step (t : tc) (o : op) : option (tc * list obs) :=
    match o with
    | Check n => Some (check t n, [])
    | Push v => match push t v with Some t' => Some (t', []) | None => None end
    | PushAll vs => match push_list t vs with Some t' => Some (t', []) | None => None end
    | Pop => match pop t with Some (w, t') => Some (t', [Popped w]) | None => None end
    | Call r => match call t r with Some t' => Some (t', []) | None => None end
    | Ret => match ret t with
             | Some (inl _) => Some (t, [Exited])
             | Some (inr (w, t')) => Some (t', [Resumed w])
             | None => None
             end
    | Clear => Some (set_ac t 0, [])
    | Spread vs => match spread t vs with Some t' => Some (t', []) | None => None end
    end.
  (** [None]: an access outside of a stack segment. *)
  Fixpoint run (t : tc) (os : list op) : option (tc * list obs) :=
    match os with
    | [] => Some (t, [])
    | o :: q =>
        match step t o with
        | Some (t1, x) => match run t1 q with Some (t2, y) => Some (t2, x ++ y) | None => None end
        | None => None
        end
    end.
End Stack.
