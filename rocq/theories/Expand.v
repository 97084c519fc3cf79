(** Model of src/library/expander.min: the macro expander and the check for
    unknown variables it ends with.

    Simplifications.  A syntax object is represented by its datum (C22 relates
    the two): a list whose tail is itself a syntax object is not represented.
    Transformers are functions from data to data that may raise an error
    ([None]); they have no other effects, and pattern variables (the values
    syntax-case binds, expander.min:266-289, 483-484) are not represented.
    [evalx] stands for evaluating the right-hand side of define-syntaxes or
    let-syntaxes to its list of transformers.  Raised errors, exit(1) on an
    unknown variable included, are [XErr]; [XFuel] is running out of fuel. *)
From Coq Require Import ZArith NArith Bool Ascii String List Arith Lia.
From Verif Require Import Base Heap Ast Check.
Import ListNotations.
Local Open Scope list_scope.

Inductive xres (A : Type) : Type := XOk (a : A) | XErr | XFuel.
Arguments XOk {A} _. Arguments XErr {A}. Arguments XFuel {A}.
Definition xbind {A B} (r : xres A) (g : A -> xres B) : xres B :=
  match r with XOk a => g a | XErr => XErr | XFuel => XFuel end.
Notation "'let!' x := r 'in' s" := (xbind r (fun x => s)) (at level 200, x pattern, r at level 100, s at level 200).

Notation name := (list byte).
Definition name_dec : forall a b : name, {a = b} + {a <> b} := list_eq_dec ascii_dec.
Definition sym (s : string) : obj := OSym (s2b s).

(** syntax->list: [None] when the syntax is not a list *)
Fixpoint to_list (o : obj) : option (list obj) :=
  match o with
  | ONull => Some []
  | OPair a d => match to_list d with Some l => Some (a :: l) | None => None end
  | _ => None
  end.
Fixpoint of_list (l : list obj) : obj :=
  match l with [] => ONull | a :: r => OPair a (of_list r) end.

Definition tr := obj -> option obj.
(** An entry of an xforms table: name, transformer, the transformers in scope
    where it was defined; expander.min:5-13. *)
Inductive xform : Type := Xf (fn : tr) (sc : list (name * xform)).
Definition xforms := list (name * xform).

(** lookup-xform, expander.min:69-72 *)
Fixpoint xassoc (n : name) (l : xforms) : option xform :=
  match l with
  | [] => None
  | (m, x) :: r => if name_dec n m then Some x else xassoc n r
  end.
Definition lookup_xform (o : obj) (l : xforms) : option xform :=
  match o with OSym n => xassoc n l | _ => None end.
(** merge-xforms, expander.min:74-78 *)
Fixpoint merge (xs new : xforms) : xforms :=
  match new with
  | [] => xs
  | (n, x) :: r => match xassoc n xs with Some _ => merge xs r | None => merge ((n, x) :: xs) r end
  end.

(** _-form?, expander.min:86-91 *)
Definition form_is (kw : string) (e : obj) : bool :=
  match e with OPair h _ => is_kw kw h | _ => false end.
(** stx-self-evaluating?, expander.min:107-115 *)
Definition self_eval (e : obj) : bool :=
  match e with
  | OTrue | OFalse | OFix _ | OStr _ | OVec _ | OEmptyVec | OBox _ | OChar _ => true
  | _ => false
  end.

(** A list of identifiers *)
Definition ident_list (o : obj) : option (list obj) :=
  match to_list o with Some l => if forallb symbolp l then Some l else None | None => None end.

Definition obj_sym_dec (a b : obj) : bool :=
  match a, b with
  | OSym n, OSym m => if name_dec n m then true else false
  | OGensym n i, OGensym m j => if name_dec n m then N.eqb i j else false
  | _, _ => false
  end.
(** duplicate-identifier, expander.min:118-127 *)
Fixpoint duplicate (ids new : list obj) : bool :=
  match new with
  | [] => false
  | i :: r => existsb (obj_sym_dec i) ids || duplicate (i :: ids) r
  end.

(** check-define-syntaxes/values-form!, expander.min:131-144; [None]: an error *)
Definition check_define_form (e : obj) : option (list obj * obj) :=
  match e with
  | OPair _ (OPair ids (OPair rhs ONull)) =>
      match ident_list ids with Some l => Some (l, rhs) | None => None end
  | _ => None
  end.
(** check-let-syntaxes/values-form!, expander.min:148-172: the bindings and the
    body *)
Fixpoint check_bindings (l : list obj) : option (list (list obj * obj)) :=
  match l with
  | [] => Some []
  | b :: r =>
      match to_list b with
      | Some [ids; e] => match ident_list ids, check_bindings r with
                         | Some i, Some q => Some ((i, e) :: q)
                         | _, _ => None
                         end
      | _ => None
      end
  end.
Definition check_let_form (e : obj) : option (list (list obj * obj) * list obj) :=
  match e with
  | OPair _ (OPair bs body) =>
      match to_list bs, to_list body with
      | Some l, Some (b :: r) => match check_bindings l with Some q => Some (q, b :: r) | None => None end
      | _, _ => None
      end
  | _ => None
  end.
(** The duplicate check over all bindings of a let, expander.min:530-537, 568-576 *)
Fixpoint dup_bindings (seen : list obj) (bs : list (list obj * obj)) : bool :=
  match bs with
  | [] => false
  | (ids, _) :: r => duplicate seen ids || dup_bindings (ids ++ seen) r
  end.
(** check-set!-form!, expander.min:176-188 *)
Definition check_set_form (e : obj) : option (obj * obj) :=
  match e with
  | OPair _ (OPair x (OPair rhs ONull)) => if symbolp x then Some (x, rhs) else None
  | _ => None
  end.
(** check-lambda-form!, expander.min:192-203, and a clause of
    check-case-lambda-form!, 207-227: the formals are not looked at *)
Definition check_clause (q : obj) : option (obj * list obj) :=
  match q with
  | OPair fm body => match to_list body with Some (b :: r) => Some (fm, b :: r) | _ => None end
  | _ => None
  end.
Fixpoint check_clause_list (l : list obj) : option (list (obj * list obj)) :=
  match l with
  | [] => Some []
  | c :: r => match check_clause c, check_clause_list r with Some x, Some q => Some (x :: q) | _, _ => None end
  end.
(** check-1ary-form!, expander.min:236-242 *)
Definition check_1ary (e : obj) : bool :=
  match e with OPair _ (OPair _ ONull) => true | _ => false end.
(** check-if-form!, expander.min:245-257 *)
Definition check_if_form (e : obj) : option (obj * obj * obj) :=
  match e with
  | OPair _ (OPair a (OPair b (OPair c ONull))) => Some (a, b, c)
  | _ => None
  end.

Fixpoint mapx {A B} (g : A -> xres B) (l : list A) : xres (list B) :=
  match l with
  | [] => XOk []
  | a :: r => let! b := g a in let! q := mapx g r in XOk (b :: q)
  end.

Section Expander.
Variable evalx : obj -> option (list tr).

(** Binding the transformers of one let-syntaxes clause, expander.min:544-556:
    each is closed over the ones bound before it. *)
Fixpoint bind_xforms (ids : list obj) (fs : list tr) (xs : xforms) : xforms :=
  match ids, fs with
  | OSym n :: r, f :: q => bind_xforms r q ((n, Xf f xs) :: xs)
  | _ :: r, _ :: q => bind_xforms r q xs
  | _, _ => xs
  end.

Definition let_form (kw : obj) (bs : list (obj * obj)) (body : list obj) : obj :=
  OPair kw (OPair (of_list (map (fun b => of_list [fst b; snd b]) bs)) (of_list body)).

(** expand/expr, expander.min:482-624, and expand/body, 425-479.  [rb] is
    recur-begin?. *)
Fixpoint expand_expr (f : nat) (xf : xforms) (rb : bool) (e : obj) {struct f} : xres obj :=
  match f with
  | O => XFuel
  | S f =>
      let loop := expand_expr f xf rb in
      if self_eval e then XOk e
      else match e with
      | OSym n =>
          match xassoc n xf with
          | Some (Xf fn _) => match fn e with Some e' => loop e' | None => XErr end
          | None => XOk e
          end
      | OGensym _ _ => XOk e
      | OPair h q =>
          if is_kw "define-values" h || is_kw "define-syntaxes" h then XOk e
          else if is_kw "let-syntaxes" h then
            match check_let_form e with
            | None => XErr
            | Some (bs, body) => expand_let_syntaxes f [] bs body xf
            end
          else if is_kw "let-values" h || is_kw "letrec-values" h then
            match check_let_form e with
            | None => XErr
            | Some (bs, body) =>
                if dup_bindings [] bs then XErr
                else let! bs' := mapx (fun b => let! v := loop (snd b) in XOk (of_list (fst b), v)) bs in
                     let! body' := body_loop_of f xf body in
                     XOk (let_form h bs' body')
            end
          else if is_kw "lambda" h then
            match check_clause q with
            | None => XErr
            | Some (fm, body) => let! body' := body_loop_of f xf body in XOk (OPair h (OPair fm (of_list body')))
            end
          else if is_kw "case-lambda" h then
            match to_list q with
            | None => XErr
            | Some l =>
                match check_clause_list l with
                | None => XErr
                | Some cls =>
                    let! cls' := mapx (fun c => let! body' := body_loop_of f xf (snd c) in XOk (OPair (fst c) (of_list body'))) cls in
                    XOk (OPair h (of_list cls'))
                end
            end
          else if is_kw "if" h then
            match check_if_form e with
            | None => XErr
            | Some (a, b, c) =>
                let! a' := loop a in let! b' := loop b in let! c' := loop c in
                XOk (of_list [h; a'; b'; c'])
            end
          else if is_kw "begin" h then
            match to_list q with
            | None => XErr
            | Some [] => XOk (of_list [sym "void"])
            | Some body =>
                if rb then
                  let! body' := body_loop_of f xf body in
                  match body' with
                  | [x] => XOk x
                  | _ => XOk (OPair (sym "begin") (of_list body'))
                  end
                else let! body' := mapx loop body in XOk (OPair (sym "begin") (of_list body'))
            end
          else if is_kw "set!" h then
            match check_set_form e with
            | None => XErr
            | Some (x, rhs) => let! v := loop rhs in XOk (of_list [h; x; v])
            end
          else if is_kw "quote" h || is_kw "quote-syntax" h then
            if check_1ary e then XOk e else XErr
          else
            match lookup_xform h xf with
            | Some (Xf fn sc) =>
                match fn e with
                | Some e' => expand_expr f (merge xf sc) rb e'
                | None => XErr
                end
            | None =>
                match to_list e with
                | Some l => let! l' := mapx loop l in XOk (of_list l')
                | None => XErr
                end
            end
      | _ => XErr
      end
  end
(** The loop over the clauses of let-syntaxes, expander.min:529-559. *)
with expand_let_syntaxes (f : nat) (seen : list obj) (bs : list (list obj * obj)) (body : list obj) (xf : xforms) {struct f} : xres obj :=
  match f with
  | O => XFuel
  | S f =>
      match bs with
      | [] => let! body' := body_loop_of f xf body in XOk (let_form (sym "let-values") [] body')
      | (ids, rhs) :: r =>
          if duplicate seen ids then XErr
          else let! rhs' := expand_expr f xf true rhs in
               match evalx rhs' with
               | None => XErr
               | Some fs => if List.length ids =? List.length fs
                            then expand_let_syntaxes f (ids ++ seen) r body (bind_xforms ids fs xf)
                            else XErr
               end
      end
  end
(** expand/body, expander.min:425-426 *)
with body_loop_of (f : nat) (xf : xforms) (l : list obj) {struct f} : xres (list obj) :=
  match f with
  | O => XFuel
  | S f => match l with [] => XErr | a :: r => body_loop f xf a r [] end
  end
(** The loop of expand/body, expander.min:426-479; [defs] holds the pending
    bindings, latest first. *)
with body_loop (f : nat) (xf : xforms) (e0 : obj) (rest : list obj) (defs : list (obj * obj)) {struct f} : xres (list obj) :=
  match f with
  | O => XFuel
  | S f =>
      let! e := expand_expr f xf false e0 in
      if form_is "begin" e then
        match to_list e with
        | Some (_ :: a :: more) => body_loop f xf a (more ++ rest) defs
        | _ => XErr
        end
      else if form_is "define-syntaxes" e then
        match rest, to_list e with
        | _ :: _, Some (_ :: ids :: value :: _) =>
            let! inner := expand_expr f xf true
                            (OPair (sym "let-syntaxes") (OPair (of_list [of_list [ids; value]]) (of_list rest))) in
            XOk [let_form (sym "letrec-values") (rev defs) [inner]]
        | _, _ => XErr
        end
      else if form_is "define-values" e then
        match rest, to_list e with
        | b :: r, Some (_ :: ids :: value :: _) =>
            let! v := expand_expr f xf true value in
            body_loop f xf b r ((ids, v) :: defs)
        | _, _ => XErr
        end
      else match rest with
      | b :: r =>
          match defs with
          | [] => let! tl := body_loop f xf b r [] in XOk (e :: tl)
          | _ => body_loop f xf b r
                   ((ONull, of_list [sym "let-values"; ONull; e; of_list [sym "values"]]) :: defs)
          end
      | [] =>
          match defs with
          | [] => XOk [e]
          | _ => XOk [let_form (sym "letrec-values") (rev defs) [e]]
          end
      end
  end.

Definition expand_body := body_loop_of.

(** expand/top-level, expander.min:634-649 *)
Fixpoint expand_top (f : nat) (e : obj) (xf : xforms) : xres (obj * xforms) :=
  match f with
  | O => XFuel
  | S f =>
      match e with
      | OPair h _ =>
          if is_kw "define-syntaxes" h || is_kw "define-values" h || is_kw "begin" h then XOk (e, xf)
          else match lookup_xform h xf with
               | Some (Xf fn sc) => match fn e with
                                    | Some e' => expand_top f e' (merge xf sc)
                                    | None => XErr
                                    end
               | None => XOk (e, xf)
               end
      | _ => XOk (e, xf)
      end
  end.

(** The mutable state of expand/non-define-values, expander.min:654-655 *)
Record mst : Type := mkmst { x_forms : xforms; define_ids : list obj; xform_ids : list obj }.

(** Recording one transformer, expander.min:678-697: every transformer defined
    by this module is closed over the new table, and the table is reversed. *)
Definition mem_sym (o : obj) (l : list obj) : bool := existsb (obj_sym_dec o) l.
Definition record_xform (id : obj) (fn : tr) (st : mst) : mst :=
  match id with
  | OSym n =>
      let in_scope := (n, Xf fn []) :: x_forms st in
      let ids := id :: xform_ids st in
      mkmst (rev (map (fun e => if mem_sym (OSym (fst e)) ids
                                then match snd e with Xf v _ => (fst e, Xf v in_scope) end
                                else e) in_scope))
            (define_ids st) ids
  | _ => st
  end.
Fixpoint record_xforms (ids : list obj) (fs : list tr) (st : mst) : mst :=
  match ids, fs with
  | i :: r, g :: q => record_xforms r q (record_xform i g st)
  | _, _ => st
  end.

(** The loop of expand/non-define-values, expander.min:657-722; [sc] holds the
    transformers for the first expression (with-scope) when it is given. *)
Fixpoint non_define (f : nat) (es : list obj) (sc : option xforms) (st : mst) : xres (list obj * mst) :=
  match f with
  | O => XFuel
  | S f =>
      match es with
      | [] => match sc with None => XOk ([], st) | Some _ => XErr end
      | e0 :: r =>
          let! (e, in_scope) := expand_top f e0 (match sc with Some x => x | None => x_forms st end) in
          if form_is "define-syntaxes" e then
            match check_define_form e with
            | None => XErr
            | Some (ids, rhs) =>
                if duplicate (xform_ids st) ids then XErr
                else let! rhs' := expand_expr f in_scope true rhs in
                     match evalx rhs' with
                     | None => XErr
                     | Some fs => if List.length ids =? List.length fs
                                  then non_define f r None (record_xforms ids fs st)
                                  else XErr
                     end
            end
          else if form_is "define-values" e then
            match check_define_form e with
            | None => XErr
            | Some (ids, _) =>
                if duplicate (define_ids st) ids then XErr
                else let! (es', st') := non_define f r None (mkmst (x_forms st) (ids ++ define_ids st) (xform_ids st)) in
                     XOk (e :: es', st')
            end
          else if form_is "begin" e then
            match to_list e with
            | None => XErr
            | Some l =>
                match tl l with
                | [] => non_define f r None st
                | forms => let! (es1, st1) := non_define f forms (Some in_scope) st in
                           let! (es2, st2) := non_define f r None st1 in
                           XOk (es1 ++ es2, st2)
                end
            end
          else
            let! e' := expand_expr f in_scope true e in
            let! (es', st') := non_define f r None st in
            XOk (e' :: es', st')
      end
  end.

(** expand/define-values, expander.min:726-739 *)
Definition define_values1 (f : nat) (xf : xforms) (e : obj) : xres obj :=
  if form_is "define-values" e then
    match to_list e with
    | Some (h :: ids :: rhs :: _) => let! v := expand_expr f xf true rhs in XOk (of_list [h; ids; v])
    | _ => XErr
    end
  else XOk e.

(** ** check/module!, expander.min:304-400

    [check_var sc e] is check/expr!: [sc] lists the names in scope. *)
Definition in_scope (n : obj) (sc : list obj) : bool := existsb (obj_sym_dec n) sc.

(** check/formals!, expander.min:311-322: the names of a formals list; an
    element that is not a symbol is accepted *)
Fixpoint formals_names (o : obj) : option (list obj) :=
  match o with
  | OPair a d => match formals_names d with Some l => Some (a :: l) | None => None end
  | OSym _ | OGensym _ _ => Some [o]
  | ONull => Some []
  | _ => None
  end.

(** [checkl chk l]: for-each; [XOk tt] when all are accepted *)
Definition xthen (a b : xres unit) : xres unit := match a with XOk _ => b | r => r end.
Fixpoint checkl (chk : obj -> xres unit) (l : list obj) : xres unit :=
  match l with [] => XOk tt | a :: r => xthen (chk a) (checkl chk r) end.

(** The identifiers and the value of one binding, expander.min:352-355, 360-363 *)
Definition binding_parts (b : obj) : option (list obj * obj) :=
  match to_list b with
  | Some (ids :: v :: _) => match to_list ids with Some l => Some (l, v) | None => None end
  | _ => None
  end.
Fixpoint bindings_parts (l : list obj) : option (list (list obj * obj)) :=
  match l with
  | [] => Some []
  | b :: r => match binding_parts b, bindings_parts r with Some x, Some q => Some (x :: q) | _, _ => None end
  end.

Definition forl (o : obj) (k : list obj -> xres unit) : xres unit :=
  match to_list o with Some l => k l | None => XErr end.

(** check/expr!, expander.min:325-383 *)
Fixpoint check_var (f : nat) (sc : list obj) (e : obj) : xres unit :=
  match f with
  | O => XFuel
  | S f =>
      match e with
      | OPair h q =>
          if is_kw "lambda" h then
            match q with
            | OPair fm body => match formals_names fm with
                               | Some ns => forl body (checkl (check_var f (ns ++ sc)))
                               | None => XErr
                               end
            | _ => XErr
            end
          else if is_kw "case-lambda" h then
            forl q (checkl (fun c =>
              match c with
              | OPair fm body => match formals_names fm with
                                 | Some ns => forl body (checkl (check_var f (ns ++ sc)))
                                 | None => XErr
                                 end
              | _ => XErr
              end))
          else if is_kw "let-values" h || is_kw "letrec-values" h then
            match q with
            | OPair bs body =>
                match to_list bs with
                | None => XErr
                | Some l =>
                    match bindings_parts l with
                    | None => XErr
                    | Some ps =>
                        let sc' := List.concat (map fst ps) ++ sc in
                        let rsc := if is_kw "let-values" h then sc else sc' in
                        xthen (checkl (check_var f rsc) (map snd ps)) (forl body (checkl (check_var f sc')))
                    end
                end
            | _ => XErr
            end
          else if is_kw "set!" h then
            match to_list q with
            | Some (_ :: v :: _) => check_var f sc v
            | _ => XErr
            end
          else if is_kw "if" h || is_kw "begin" h then forl q (checkl (check_var f sc))
          else if is_kw "quote" h || is_kw "quote-syntax" h then XOk tt
          else forl e (checkl (check_var f sc))
      | OSym _ | OGensym _ _ => if in_scope e sc then XOk tt else XErr
      | _ => if self_eval e then XOk tt else XErr
      end
  end.

(** The names a top-level form defines, expander.min:306-308, 386-390 *)
Definition defined_names (e : obj) : list obj :=
  if form_is "define-values" e then
    match e with
    | OPair _ (OPair ids _) => match to_list ids with Some l => l | None => [] end
    | _ => []
    end
  else [].
(** The second pass, expander.min:393-398 *)
Definition check_top (f : nat) (sc : list obj) (e : obj) : xres unit :=
  if form_is "define-values" e then
    match to_list e with Some (_ :: _ :: v :: _) => check_var f sc v | _ => XErr end
  else check_var f sc e.
Definition check_module (f : nat) (es : list obj) (sc : list obj) : xres unit :=
  checkl (check_top f (List.concat (map defined_names es) ++ sc)) es.

(** expand/module, expander.min:403-748: the expanded module and its
    transformers. *)
Definition expand_module (f : nat) (es : list obj) (xf : xforms) (sc : list obj) : xres (list obj * xforms) :=
  let! (es1, st) := non_define f es None (mkmst xf [] []) in
  let! es2 := mapx (define_values1 f (x_forms st)) es1 in
  let! _ := check_module f es2 sc in
  XOk (es2, x_forms st).

(** expand, expander.min:751-755, used at the prompt: one expression, the
    transformers, and the names in scope afterwards (check/module! adds the
    names defined to the scope it is given, expander.min:306-308). *)
Definition expand_prompt (f : nat) (e : obj) (xf : xforms) (sc : list obj) : xres (obj * xforms * list obj) :=
  let! (es, xf') := expand_module f [e] xf sc in
  XOk (match es with [] => of_list [sym "void"] | a :: _ => a end, xf', List.concat (map defined_names es) ++ sc).
End Expander.
