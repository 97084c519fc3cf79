(** The patterns of [syntax-case]: src/library/private/stxcase.min with the helpers
    of src/library/private/stx.min.

    The macro turns each clause's pattern into a matcher expression; [gmatch] is
    what that expression computes on a value.  Values are trees ([obj], with
    [OSyntax] for syntax objects): matching allocates but never mutates.  The list
    of bindings that a matcher returns is a Coq list.

    Simplifications: a malformed pattern raises an error while the macro is
    expanded; here it is the result [MErr] of matching.  Recursion is not limited by
    the stack (see Stack.v).  A datum pattern that is a box is never equal to
    anything. *)
From Coq Require Import ZArith NArith Bool Ascii String List Arith Lia.
From Verif Require Import Base Check Expand LibRead.
Import ListNotations.
Local Open Scope list_scope.

(** What a matcher does: returns the list of bindings, returns #f, or raises an
    error.  [MFuel]: not returned within the fuel of the model. *)
Inductive mres (A : Type) : Type := MOk (a : A) | MNo | MErr | MFuel.
Arguments MOk {A} _. Arguments MNo {A}. Arguments MErr {A}. Arguments MFuel {A}.

(** Both operands of a call are evaluated before the call: an error in the second
    one is raised also when the first one is #f. *)
Definition mboth {A B C} (f : A -> B -> C) (a : mres A) (b : mres B) : mres C :=
  match a, b with
  | MFuel, _ => MFuel | MErr, _ => MErr
  | _, MFuel => MFuel | _, MErr => MErr
  | MOk x, MOk y => MOk (f x y)
  | _, _ => MNo
  end.
(** [append/#f], stx.min 91-99, on the results of two matchers *)
Definition mapp : mres (list obj) -> mres (list obj) -> mres (list obj) := mboth (@app obj).
(** [cons/#f], stx.min 85-89 *)
Definition mcons (x : obj) (r : mres (list obj)) : mres (list obj) :=
  match r with MOk l => MOk (x :: l) | r => r end.
(** [(map f l)] for a matcher [f], followed by the check of [map/#f] that no element
    is #f, stx.min 101-106 *)
Fixpoint mmap (f : obj -> mres (list obj)) (l : list obj) : mres (list (list obj)) :=
  match l with
  | [] => MOk []
  | x :: r => mboth cons (f x) (mmap f r)
  end.

(** stx.min 12-16 *)
Definition identifierp (o : obj) : bool := match o with OSyntax e _ => symbolp e | _ => false end.
(** stx-null?, stx.min 27-33 (and stx-null/#f, 75-83) *)
Definition stx_null (o : obj) : bool :=
  match o with ONull => true | OSyntax ONull _ => true | _ => false end.
(** stx-pair?, stx-car and stx-cdr, stx.min 35-41, 59-69 *)
Definition stx_pair (o : obj) : option (obj * obj) :=
  match o with OPair a d => Some (a, d) | OSyntax (OPair a d) _ => Some (a, d) | _ => None end.
(** list? *)
Definition rlist (o : obj) : bool := match to_list o with Some _ => true | None => false end.
(** stx-list?, stx.min 43-49 *)
Definition stx_list (o : obj) : bool :=
  rlist o || match o with OSyntax e _ => rlist e | _ => false end.
Definition syntaxp (o : obj) : bool := match o with OSyntax _ _ => true | _ => false end.
(** stx->list, stx.min 108-118 *)
Definition stx_to_list (o : obj) : option (list obj) :=
  match o with
  | OSyntax e _ => to_list e
  | _ => match to_list o with Some l => if forallb syntaxp l then Some l else None | None => None end
  end.
(** the elements of a vector, with stx-vector?, stx.min 51-57; [None]: not a vector *)
Definition vec_elems (o : obj) : option (list obj) :=
  match o with OVec l => Some l | OEmptyVec => Some [] | _ => None end.
Definition stx_vector (o : obj) : bool :=
  match o with
  | OSyntax e _ => match vec_elems e with Some _ => true | None => false end
  | _ => match vec_elems o with Some _ => true | None => false end
  end.

(** [(let ([tail (stx-cdr pat)]) (if (syntax? tail) tail (datum->syntax tail)))],
    stxcase.min 76-80, 183-187: to_stx keeps a syntax object as it is. *)

(** the loop of split-stx-list, stx.min 120-136 *)
Fixpoint split_loop (n : Z) (prop : bool) (s : obj) : list obj * obj * Z :=
  let pair (a : obj) (r : list obj * obj * Z) :=
    let '(pre, post, m) := r in
    if (m <? n)%Z then ([], s, (m + 1)%Z) else (a :: pre, post, m) in
  let last := ([], s, if prop then (if stx_null s then 0 else -1)%Z else 1%Z) in
  match s with
  | OPair a d => pair a (split_loop n prop d)
  | OSyntax (OPair a d) _ => pair a (split_loop n prop d)
  | _ => last
  end.

(** [(eq? (syntax-e stx) 'name)] under identifier?, stxcase.min 131-137 *)
Definition stx_is (name : string) (o : obj) : bool :=
  match o with OSyntax (OSym n) _ => if list_eq_dec ascii_dec n (s2b name) then true else false | _ => false end.

(** equal? on the datum of a pattern and on the content of a syntax object *)
Definition atom_eqb (a b : obj) : bool :=
  match a, b with
  | ONull, ONull | OTrue, OTrue | OFalse, OFalse | OEof, OEof | OVoid, OVoid => true
  | OSym x, OSym y => if list_eq_dec ascii_dec x y then true else false
  | OGensym _ i, OGensym _ j => (i =? j)%N
  | OStr x, OStr y => if list_eq_dec ascii_dec x y then true else false
  | OFix x, OFix y => (x =? y)%Z
  | OChar x, OChar y => Ascii.eqb x y
  | OVec [], OVec [] | OEmptyVec, OVec [] | OVec [], OEmptyVec | OEmptyVec, OEmptyVec => true
  | _, _ => false
  end.

Section Match.
(** the symbols of the literals list *)
Variable lits : list obj.

(** [variable?], stxcase.min 58-64 *)
Definition variablep (o : obj) : bool :=
  match o with OSyntax e _ => symbolp e && negb (existsb (atom_eqb e) lits) | _ => false end.

(** [get-pattern-vars], stxcase.min 66-127: the variables with the number of
    ellipses they are under.  The code collects them in reverse order and reverses
    the list where the order matters (637). *)
Fixpoint gvars (f : nat) (depth : nat) (p : obj) : option (list (obj * nat)) :=
  match f with
  | O => None
  | S f =>
      let cat a b := match a, b with Some x, Some y => Some (x ++ y) | _, _ => None end in
      if stx_null p then Some [] else
      match stx_pair p with
      | Some (hd, tl) =>
          let ell := match stx_pair tl with
                     | Some (next, after) => if stx_is "..." next then Some after else None
                     | None => None
                     end in
          match ell with
          | Some after => cat (gvars f (S depth) hd) (gvars f depth (to_stx after))
          | None => cat (gvars f depth hd) (gvars f depth (to_stx tl))
          end
      | None =>
          match p with
          | OSyntax e _ =>
              match vec_elems e with
              | Some v =>
                  (fix go (v : list obj) : option (list (obj * nat)) :=
                     match v with
                     | [] => Some []
                     | x :: r =>
                         match r with
                         | y :: r' =>
                             if stx_is "..." y then cat (gvars f (S depth) x) (go r')
                             else cat (gvars f depth x) (go r)
                         | [] => cat (gvars f depth x) (Some [])
                         end
                     end) v
              | None =>
                  if stx_is "_" p then Some []
                  else if variablep p then Some [(e, depth)]
                  else Some []
              end
          | _ => None
          end
      end
  end.

(** the loop that counts the subpatterns before and after the ellipsis, stxcase.min
    143-167; [None]: an ellipsis that follows another one or nothing.  The result
    [prop] says that the pattern is a proper list. *)
Fixpoint gcount (p : obj) (be ae : nat) (ell : bool) : option (nat * nat * bool * bool) :=
  let pair (a : obj) (k : nat -> nat -> bool -> option (nat * nat * bool * bool)) :=
    if stx_is "..." a then (if ell then None else if be =? 0 then None else k be ae true)
    else if ell then k be (S ae) ell else k (S be) ae ell in
  let last := if ell then Some (be, S ae, ell, false) else Some (S be, ae, ell, false) in
  match p with
  | ONull => Some (be, ae, ell, true)
  | OSyntax ONull _ => Some (be, ae, ell, true)
  | OPair a d => pair a (fun be ae ell => gcount d be ae ell)
  | OSyntax (OPair a d) _ => pair a (fun be ae ell => gcount d be ae ell)
  | _ => last
  end.
(** the same for the elements of a vector, stxcase.min 350-369 *)
Fixpoint gvcount (v : list obj) (be ae : nat) (ell : bool) : option (nat * nat * bool) :=
  match v with
  | [] => Some (be, ae, ell)
  | x :: r =>
      if stx_is "..." x then (if ell then None else if be =? 0 then None else gvcount r be ae true)
      else if ell then gvcount r be (S ae) ell else gvcount r (S be) ae ell
  end.

(** [gen-match/datum], stxcase.min 549-606; syntax-e of something that is not syntax
    is an error *)
Definition gdatum (p e : obj) : mres (list obj) :=
  if stx_null p then (if stx_null e then MOk [] else MNo)
  else if stx_is "_" p then MOk []
  else if variablep p then MOk [e]
  else match p with
       | OSyntax d _ =>
           match e with
           | OSyntax x _ => if atom_eqb d x then MOk [] else MNo
           | _ => MErr
           end
       | _ => MErr
       end.

(** [(apply map/#f list tmp)], stxcase.min 225-238: the i-th elements of all the
    matches, for each i; map raises an error when the lengths differ. *)
Definition cols (n : nat) (rows : list (list obj)) : list obj :=
  map (fun i => of_list (map (fun r => nth i r ONull) rows)) (seq 0 n).
Definition transpose (r : mres (list (list obj))) : mres (list obj) :=
  match r with
  | MOk [] => MOk []
  | MOk (r0 :: rs) =>
      if forallb (fun r => length r =? length r0) rs then MOk (cols (length r0) (r0 :: rs)) else MErr
  | MNo => MNo | MErr => MErr | MFuel => MFuel
  end.

(** [gen-match/expr], stxcase.min 139-547.  [gseq] is the loop over a list pattern
    without ellipsis or with the ellipsis at its end (173-317). *)
Fixpoint gmatch (f : nat) (p e : obj) : mres (list obj) :=
  match f with
  | O => MFuel
  | S f =>
      match stx_pair p with
      | Some _ =>
          match gcount p 0 0 false with
          | None => MErr
          | Some (be, ae, ell, prop) =>
              if negb ell || (ae =? 0) then gseq f be ell prop p 0 e
              else
                (* stxcase.min 318-346 *)
                let '(ppre, ppost, _) := split_loop (Z.of_nat ae) prop p in
                let '(pre, post, m) := split_loop (Z.of_nat ae) prop e in
                if (m =? Z.of_nat ae)%Z
                then mapp (gmatch f (to_stx (of_list ppre)) (of_list pre)) (gmatch f (to_stx ppost) post)
                else MNo
          end
      | None =>
          match p with
          | OSyntax pe _ =>
              match vec_elems pe with
              | Some v => gvec f v e
              | None => gdatum p e
              end
          | _ => gdatum p e
          end
      end
  end
with gseq (f : nat) (be : nat) (ell prop : bool) (pat : obj) (idx : nat) (e : obj) : mres (list obj) :=
  match f with
  | O => MFuel
  | S f =>
      if (if prop then idx =? be else S idx =? be)
      then gdatum (if prop then OSyntax ONull OFalse else pat) e
      else
        match stx_pair pat with
        | None => MErr
        | Some (hp, tl) =>
            let next := gseq f be ell prop (to_stx tl) (S idx) in
            if ell && (S idx =? be) then
              if stx_list e then
                if stx_null e then
                  match gvars f 0 hp with Some vs => MOk (repeat ONull (length vs)) | None => MFuel end
                else match stx_to_list e with
                     | Some l => transpose (mmap (gmatch f hp) l)
                     | None => MNo
                     end
              else MNo
            else if stx_is "_" hp then
              if stx_null e then MNo
              else match stx_pair e with Some (_, d) => next d | None => MErr end
            else
              match stx_pair e with
              | None => MNo
              | Some (a, d) =>
                  if variablep hp then mcons a (next d)
                  else if match stx_pair hp with Some _ => true | None => stx_vector hp end
                  then mapp (gmatch f hp a) (next d)
                  else match gmatch f hp a with MOk _ => next d | r => r end
              end
        end
  end
with gvec (f : nat) (v : list obj) (e : obj) : mres (list obj) :=
  (* stxcase.min 347-545 *)
  match f with
  | O => MFuel
  | S f =>
      let each (l : list (obj * obj)) (k : mres (list obj)) :=
        fold_right (fun px r => mapp (gmatch f (fst px) (snd px)) r) k l in
      match gvcount v 0 0 false with
      | None => MErr
      | Some (be, ae, ell) =>
          if stx_vector e then
            match e with
            | OSyntax x _ =>
                match vec_elems x with
                | Some w =>
                    if ell then
                      if be + ae - 1 <=? length w then
                        let rep := length w - (be + ae - 1) in
                        each (combine (firstn (be - 1) v) (firstn (be - 1) w))
                          (mapp
                             (if rep =? 0
                              then match gvars f 0 (nth (be - 1) v ONull) with
                                   | Some vs => MOk (repeat ONull (length vs)) | None => MFuel end
                              else transpose (mmap (gmatch f (nth (be - 1) v ONull))
                                                   (firstn rep (skipn (be - 1) w))))
                             (* the subpatterns after the ellipsis: the code takes them
                                from the front of the vector, 491-507 *)
                             (each (combine (firstn ae v) (firstn ae (skipn (be - 1 + rep) w))) (MOk [])))
                      else MNo
                    else
                      if length w =? length v then each (combine v w) (MOk []) else MNo
                | None => MErr
                end
            | _ => MErr
            end
          else MNo
      end
  end.

End Match.

(** The clauses of a [syntax-case] form, stxcase.min 610-709, as a function of the
    value of the expression: the first clause whose pattern matches and whose fender
    is not #f is selected, with its bindings; an error of a matcher or of a fender is
    the result.  [MNo]: no clause, the form raises a bad-syntax error.  A clause
    carries its pattern and its fender as a function of the bindings ([None]: the
    fender raises an error). *)
Fixpoint select (lits : list obj) (f : nat) (e : obj)
    (cls : list (obj * (list obj -> option bool))) (i : nat) : mres (nat * list obj) :=
  match cls with
  | [] => MNo
  | (p, fender) :: r =>
      match gmatch lits f p e with
      | MOk bs =>
          match fender bs with
          | Some true => MOk (i, bs)
          | Some false => select lits f e r (S i)
          | None => MErr
          end
      | MNo => select lits f e r (S i)
      | MErr => MErr | MFuel => MFuel
      end
  end.
Definition syntax_case (lits : list obj) (f : nat) (v : obj)
    (cls : list (obj * (list obj -> option bool))) : mres (nat * list obj) :=
  select lits f (to_stx v) cls 0.
