(** The compiler: src/core/c/jitcompile.c, src/core/c/jit.c:153-188 and the
    hand-written procedures of src/core/c/jitprims.c. *)
From Coq Require Import ZArith NArith Bool Ascii String List Arith Lia.
From Verif Require Import Base Heap Ast Code.
Import ListNotations.
Local Open Scope list_scope.

(** get_formals_len, jitcompile.c:9-14. *)
Definition formals_len (fm : formals) : nat := List.length (req fm).
Definition has_rest (fm : formals) : bool := match rest fm with Some _ => true | None => false end.

(** update_arity, jitcompile.c:16-65.  [None]: minim_fixnum of #f. *)
Fixpoint update_arity (a : arity) (n : nat) (restp : bool) : option arity :=
  match a with
  | ANull => Some (if restp then APair n AFalse else AFix n)
  | AFix m =>
      if m <? n then Some (if restp then APair m (APair n AFalse) else APair m (APair n ANull))
      else if n =? m then Some (if restp then APair m AFalse else AFix m)
      else Some (if restp then APair n AFalse else APair n (AFix m))
  | APair m b =>
      if m <? n then
        match b with
        | AFalse => Some a
        | _ => option_map (APair m) (update_arity b n restp)
        end
      else if n =? m then Some (if restp then APair m AFalse else a)
      else Some (if restp then APair m AFalse else APair n a)
  | AFalse => None
  end.

(** ** Compile-time environments, jitcommon.c:62-159

    The scope is the list of variables bound so far, newest first; the state
    threaded through compilation is the number of labels of the current
    procedure and the templates, newest first. *)
Definition scope := list ident.
Record cst : Type := CSt { labels : nat; tmpls : list code }.

(** scope_cenv_ref, jitcommon.c:152-159: the number of variables bound before. *)
Definition scope_ref (sc : scope) (x : ident) : option nat :=
  match memq x sc with Some l => Some (List.length l - 1) | None => None end.

Notation sitem := (item nat).
Notation "'ins' i" := (Ins (C := nat) i) (at level 10).

(** with_tail_ret, jitcompile.c:71-78. *)
Definition with_tail_ret (its : list sitem) (tailp : bool) : list sitem :=
  if tailp then its ++ [ins Iret] else its.

(** compile_lookup_cell, jitcompile.c:146-155. *)
Definition lookup_cell (x : ident) (sc : scope) : list sitem :=
  match scope_ref sc x with
  | None => [ins (Itl_lookup_cell x)]
  | Some i => [ins (Ilookup_cell i)]
  end.

(** The code that fills a closure, jitcompile.c:218-231. *)
Fixpoint fill_closure (idx : nat) (fvs : list ident) (sc : scope) : list sitem :=
  match fvs with
  | [] => []
  | x :: r => lookup_cell x sc ++ [ins (Iclosure_set Rt0 idx Rres)] ++ fill_closure (S idx) r sc
  end.

(** The code that binds the arguments, jitcompile.c:115-136: the items and the
    extended scope. *)
Fixpoint bind_args (aidx : nat) (xs : list ident) (sc : scope) : list sitem * scope :=
  match xs with
  | [] => ([], sc)
  | x :: r =>
      let '(its, sc') := bind_args (S aidx) r (x :: sc) in
      ([ins (Iget_arg Rres aidx); ins (Ibind (List.length sc) x)] ++ its, sc')
  end.
Definition bind_formals (fm : formals) (sc : scope) : list sitem * scope :=
  let '(its, sc1) := bind_args 0 (req fm) sc in
  match rest fm with
  | None => (its, sc1)
  | Some x => (its ++ [ins (Ido_rest (List.length (req fm))); ins (Ibind (List.length sc1) x)], x :: sc1)
  end.

(** The free variables are bound first, jitcompile.c:173-175. *)
Definition fvs_scope (fvs : list ident) : scope := rev fvs.

(** compile_expr2, jitcompile.c:80-497.  [None]: compilation fails or its
    behaviour is undefined. *)
Fixpoint compile (e : expr) (sc : scope) (tailp : bool) (s : cst) {struct e} : option (list sitem * cst) :=
  (* compile_begin, jitcompile.c:319-343, on a non-empty sequence *)
  let fix seq (es : list expr) (sc : scope) (tailp : bool) (s : cst) {struct es} : option (list sitem * cst) :=
    match es with
    | [] => Some (with_tail_ret [ins (Iliteral VVoid)] tailp, s)
    | [e] => compile e sc tailp s
    | e :: r =>
        match compile e sc false s with
        | None => None
        | Some (its, s1) =>
            match seq r sc tailp s1 with
            | None => None
            | Some (its', s2) => Some (its ++ its', s2)
            end
        end
    end in
  (* the arguments of an application or of mv-values *)
  let fix args (es : list expr) (sc : scope) (s : cst) {struct es} : option (list sitem * cst) :=
    match es with
    | [] => Some ([], s)
    | e :: r =>
        match compile e sc false s with
        | None => None
        | Some (its, s1) =>
            match args r sc s1 with
            | None => None
            | Some (its', s2) => Some (its ++ [ins Ipush] ++ its', s2)
            end
        end
    end in
  (* the clauses of compile_case_lambda2, jitcompile.c:177-202; [label] is the
     label at which the clause starts *)
  let fix clauses (cls : list (formals * list expr)) (bounds : list (list ident)) (fvs : list ident) (label : option nat)
                  (ar : arity) (s : cst) {struct cls} : option (list sitem * option nat * arity * cst) :=
    match cls with
    | [] => Some ([], label, ar, s)
    | (fm, body) :: r =>
        let l := labels s in
        let br := if has_rest fm then Ibranchlt (formals_len fm) l else Ibranchne (formals_len fm) l in
        let start := match label with
                     | Some l0 => [Lab l0]
                     | None => [ins (Imov Rres Rac)]
                     end in
        match update_arity ar (formals_len fm) (has_rest fm) with
        | None => None
        | Some ar1 =>
            (* compile_lambda_clause, jitcompile.c:105-144 *)
            let size := List.length fvs + List.length (hd [] bounds) in
            let '(binds, sc1) := bind_formals fm (fvs_scope fvs) in
            match seq body sc1 true (CSt (S l) (tmpls s)) with
            | None => None
            | Some (its, s1) =>
                match clauses r (tl bounds) fvs (Some l) ar1 s1 with
                | None => None
                | Some (its', label', ar', s2) =>
                    Some (start ++ [ins br; ins (Ipush_env size); ins Iclosure_bind] ++ binds ++ [ins Iclear_frame]
                            ++ its ++ its', label', ar', s2)
                end
            end
        end
    end in
  (* compile_case_lambda2, jitcompile.c:157-236 *)
  let case_lambda2 (cls : list (formals * list expr)) (fvs : list ident) (bounds : list (list ident)) : option (list sitem * cst) :=
    match clauses cls bounds fvs None ANull (CSt 0 (tmpls s)) with
    | Some (its, Some l, ar, s1) =>
        match resolve_refs (tmpls s1) (its ++ [Lab l; ins Ido_arity_error]) with
        | None => None
        | Some (its', reloc) =>
            match write_code its' reloc ar with
            | None => None
            | Some c =>
                let idx := List.length (tmpls s1) in
                let body := match fvs with
                            | [] => []
                            | _ => [ins (Imov Rt0 Rres)] ++ fill_closure 0 fvs sc ++ [ins (Imov Rres Rt0)]
                            end in
                Some (with_tail_ret ([ins (Imake_closure idx (List.length fvs))] ++ body) tailp,
                      CSt (labels s) (c :: tmpls s1))
            end
        end
    | _ => None
    end in
  match e with
  | EConst v => Some (with_tail_ret [ins (Iliteral v)] tailp, s)          (* jitcompile.c:431-434 *)
  | EUnbound => Some (with_tail_ret [ins (Iliteral VUnbound)] tailp, s)   (* jitcompile.c:475-477 *)
  | EVar x =>                                                             (* jitcompile.c:416-429 *)
      Some (with_tail_ret [ins (match scope_ref sc x with None => Itl_lookup x | Some i => Ilookup i end)] tailp, s)
  | EDefine ids e =>                                                      (* jitcompile.c:80-87 *)
      match compile e sc false s with
      | None => None
      | Some (its, s1) => Some (with_tail_ret (its ++ [ins (Itl_bind_values (List.length ids) ids)]) tailp, s1)
      end
  | ESet x e =>                                                           (* jitcompile.c:89-103 *)
      match compile e sc false s with
      | None => None
      | Some (its, s1) =>
          Some (with_tail_ret (its ++ [ins (match scope_ref sc x with None => Itl_rebind x | Some i => Irebind i end)]) tailp, s1)
      end
  | ELam fm body =>                                                       (* jitcompile.c:238-243 *)
      case_lambda2 [(fm, body)] (free_vars e) (lambda_bounds fm body)
  | ECase cls => case_lambda2 cls (free_vars e) (case_bounds cls)         (* jitcompile.c:245-249 *)
  | EMvCall p c =>                                                        (* jitcompile.c:251-273 *)
      let l := labels s in
      let s0 := if tailp then s else CSt (S l) (tmpls s) in
      match compile p sc false s0 with
      | None => None
      | Some (its1, s1) =>
          match compile c sc false s1 with
          | None => None
          | Some (its2, s2) =>
              Some ((if tailp then [] else [ins (Isave_cc l)]) ++ its1 ++ [ins Iclear_frame; ins Ido_with_values] ++ its2
                      ++ [ins Iset_proc; ins Iapply] ++ (if tailp then [] else [Lab l]), s2)
          end
      end
  | EMvLet e ids body =>                                                  (* jitcompile.c:275-298 *)
      match rest ids with
      | Some _ => None                       (* the cdr of a symbol is taken *)
      | None =>
          match compile e sc false s with
          | None => None
          | Some (its1, s1) =>
              let bidx := List.length sc in
              let sc1 := rev (req ids) ++ sc in
              match compile body sc1 tailp s1 with
              | None => None
              | Some (its2, s2) =>
                  Some (its1 ++ [ins (Ibind_values bidx (List.length (req ids)) (req ids))] ++ its2, s2)
              end
          end
      end
  | EMvValues es =>                                                       (* jitcompile.c:300-317 *)
      match es with
      | [] => Some (with_tail_ret [ins Ido_values] tailp, s)
      | _ => match args es sc s with
             | None => None
             | Some (its, s1) =>
                 Some (with_tail_ret ([ins (Icheck_stack (List.length es))] ++ its ++ [ins Ido_values; ins Iclear_frame]) tailp, s1)
             end
      end
  | EBegin es => seq es sc tailp s                                        (* jitcompile.c:319-343 *)
  | EIf a b c =>                                                          (* jitcompile.c:345-377 *)
      match compile a sc false s with
      | None => None
      | Some (its1, s1) =>
          match compile b sc tailp s1 with
          | None => None
          | Some (its2, s2) =>
              match compile c sc tailp s2 with
              | None => None
              | Some (its3, s3) =>
                  let liff := labels s3 in
                  if tailp then
                    Some (its1 ++ [ins (Ibranchf liff)] ++ its2 ++ [Lab liff] ++ its3, CSt (S liff) (tmpls s3))
                  else
                    let lend := S liff in
                    Some (its1 ++ [ins (Ibranchf liff)] ++ its2 ++ [ins (Ibrancha lend); Lab liff] ++ its3 ++ [Lab lend],
                          CSt (S lend) (tmpls s3))
              end
          end
      end
  | EApp f es =>                                                          (* jitcompile.c:379-414 *)
      let l := labels s in
      let s0 := if tailp then s else CSt (S l) (tmpls s) in
      match compile f sc false s0 with
      | None => None
      | Some (its1, s1) =>
          match args es sc s1 with
          | None => None
          | Some (its2, s2) =>
              Some ((if tailp then [] else [ins (Isave_cc l)]) ++ its1 ++ [ins Iset_proc; ins (Icheck_stack (List.length es))]
                      ++ its2 ++ [ins Iapply] ++ (if tailp then [] else [Lab l]), s2)
          end
      end
  (* removed by the passes before *)
  | ELet _ _ | ELetrec _ _ | EValues _ | ECwv _ _ => None
  end.

(** compile_expr, jit.c:153-188, after the optimisation passes. *)
Definition compile_top (e : expr) : option code :=
  match compile e [] true (CSt 0 []) with
  | None => None
  | Some (its, s) =>
      let bound := bound_vars e in
      let its := match bound with [] => its | _ => ins (Ipush_env (List.length bound)) :: its end in
      match resolve_refs (tmpls s) its with
      | None => None
      | Some (its', reloc) => write_code its' reloc (AFix 0)
      end
  end.

(** ** Hand-written procedures, jitprims.c *)

(** compile_do_ret and compile_prim, jitprims.c:6-35. *)
Definition do_ret_items (n : nat) (i : instr nat nat) : list sitem :=
  [ins (Imov Rres Rac); ins (Ibranchne n 0); ins i; ins Iret; Lab 0; ins Ido_arity_error].
Definition written (its : list sitem) (ar : arity) : option code :=
  match resolve_refs [] its with
  | None => None
  | Some (its', reloc) => write_code its' reloc ar
  end.
Definition prim_code (p : N) (n : nat) : option code := written (do_ret_items n (Iccall p)) (AFix n).
(** jitprims.c:43-45 *)
Definition identity_code : option code := written (do_ret_items 1 (Iget_arg Rres 0)) (AFix 1).
Definition raise_code : option code := written (do_ret_items 1 Ido_raise) (AFix 1).
Definition void_code : option code := written (do_ret_items 0 (Iliteral VVoid)) (AFix 0).
(** compile_apply, jitprims.c:48-73. *)
Definition apply_items : list sitem :=
  [ins (Imov Rres Rac); ins (Ibranchlt 2 0); ins Ido_apply; ins Iret; Lab 0; ins Ido_arity_error].
Definition apply_code : option code := written apply_items (APair 2 AFalse).
(** compile_values, jitprims.c:76-96. *)
Definition values_items : list sitem := [ins Ido_values; ins Iret].
Definition values_code : option code := written values_items (APair 0 AFalse).
