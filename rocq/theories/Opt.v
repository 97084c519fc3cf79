(** The passes that run before compilation: src/core/c/jitopt.c.

    The passes are recursive functions on S-expressions; here they are functions
    on the parsed forms of Ast.v.  They call themselves on expressions they have
    just built, so the model takes fuel: [None] means that the fuel ran out, or
    that a pass met a form which an earlier pass removes. *)
From Coq Require Import ZArith NArith Bool Ascii String List Arith Lia.
From Verif Require Import Base Heap HeapM Ast.
Import ListNotations.
Local Open Scope list_scope.

(** [(begin e ...)], or [e] itself when there is one: jitopt.c:346-352, 393,
    526-528, 534-536, 543-545. *)
Definition begin1 (es : list expr) : expr :=
  match es with [e] => e | _ => EBegin es end.

(** *** L0: normalisation *)

(** Fresh symbols for [k] identifiers, make_tmp_ids, jitopt.c:27-41.  [Mgensym]
    never returns the same symbol twice: the counter is threaded. *)
Definition tmp_ids (n k : nat) : list ident := map Gen (seq n k).

(** let_values_ids, jitopt.c:43-63. *)
Definition let_ids (bs : list (list ident * expr)) : list ident := List.concat (map fst bs).

(** letrec_set_expr, jitopt.c:65-85. *)
Definition set_expr (n : nat) (b : list ident * expr) : expr :=
  let tmps := tmp_ids n (List.length (fst b)) in
  ELet [(tmps, snd b)]
       (match fst b with
        | [] => [EValues []]
        | _ => map (fun p => ESet (fst p) (EVar (snd p))) (combine (fst b) tmps)
        end).
Fixpoint set_exprs (n : nat) (bs : list (list ident * expr)) : list expr * nat :=
  match bs with
  | [] => ([], n)
  | b :: r => let '(es, n1) := set_exprs (n + List.length (fst b)) r in (set_expr n b :: es, n1)
  end.

(** jit_opt_L0_letrec_values, jitopt.c:87-123, without the final call of
    jit_opt_L0. *)
Definition letrec_expr (n : nat) (bs : list (list ident * expr)) (body : list expr) : expr * nat :=
  match bs with
  | [] => (EBegin body, n)
  | _ =>
      let ids := let_ids bs in
      let '(sets, n1) := set_exprs n bs in
      (ELet [(ids, EValues (repeat EUnbound (List.length ids)))] (sets ++ body), n1)
  end.

(** jit_opt_L0_let_values2, jitopt.c:125-141. *)
Fixpoint let_values2 (n : nat) (bs : list (list ident * expr)) (ids tmps : list ident) (body : list expr) : expr * nat :=
  match bs with
  | [] => (EApp (ELam (Formals ids None) body) (map EVar tmps), n)
  | (xs, e) :: r =>
      let tmps2 := tmp_ids n (List.length xs) in
      let '(inner, n1) := let_values2 (n + List.length xs) r (xs ++ ids) (tmps2 ++ tmps) body in
      (ECwv (ELam (Formals [] None) [e]) (ELam (Formals tmps2 None) [inner]), n1)
  end.

(** jit_opt_L0_let_values, jitopt.c:143-166, without the final call of
    jit_opt_L0. *)
Definition let_expr (n : nat) (bs : list (list ident * expr)) (body : list expr) : expr * nat :=
  match bs with
  | [] => (EBegin body, n)
  | [(xs, e)] => (ECwv (ELam (Formals [] None) [e]) (ELam (Formals xs None) body), n)
  | _ => let_values2 n bs [] [] body
  end.

Section Seq.
  (** Mapping a pass over a sequence: jitopt.c:11-25, 169-171, 193-203. *)
  Variable F : nat -> expr -> option (expr * nat).
  Fixpoint seq0 (n : nat) (es : list expr) : option (list expr * nat) :=
    match es with
    | [] => Some ([], n)
    | e :: r =>
        match F n e with
        | None => None
        | Some (e', n1) => match seq0 n1 r with None => None | Some (r', n2) => Some (e' :: r', n2) end
        end
    end.
  Fixpoint clauses0 (n : nat) (cls : list clause) : option (list clause * nat) :=
    match cls with
    | [] => Some ([], n)
    | (fm, body) :: r =>
        match seq0 n body with
        | None => None
        | Some (b', n1) => match clauses0 n1 r with None => None | Some (r', n2) => Some ((fm, b') :: r', n2) end
        end
    end.
End Seq.

(** jit_opt_L0, jitopt.c:206-255.  The forms #%mv-call, #%mv-let and #%mv-values
    do not occur in programs: L1 and L2 introduce them. *)
Fixpoint opt_L0 (f n : nat) (e : expr) : option (expr * nat) :=
  match f with
  | O => None
  | S f' =>
      let go := opt_L0 f' in
      match e with
      | EConst _ | EUnbound | EVar _ => Some (e, n)
      | EDefine ids e1 => match go n e1 with None => None | Some (e1', n1) => Some (EDefine ids e1', n1) end
      | ESet x e1 => match go n e1 with None => None | Some (e1', n1) => Some (ESet x e1', n1) end
      | ELetrec bs body => let '(e1, n1) := letrec_expr n bs body in go n1 e1
      | ELet bs body => let '(e1, n1) := let_expr n bs body in go n1 e1
      | ELam fm body => match seq0 go n body with None => None | Some (b', n1) => Some (ELam fm b', n1) end
      | ECase [] => Some (e, n)
      | ECase [(fm, body)] => go n (ELam fm body)
      | ECase cls => match clauses0 go n cls with None => None | Some (cls', n1) => Some (ECase cls', n1) end
      | EBegin es => match seq0 go n es with None => None | Some (es', n1) => Some (EBegin es', n1) end
      | EIf a b c =>
          match seq0 go n [a; b; c] with
          | Some ([a'; b'; c'], n1) => Some (EIf a' b' c', n1)
          | _ => None
          end
      | EApp g es =>
          match seq0 go n (g :: es) with
          | Some (g' :: es', n1) => Some (EApp g' es', n1)
          | _ => None
          end
      | EValues es => match seq0 go n es with None => None | Some (es', n1) => Some (EValues es', n1) end
      | ECwv p c =>
          match seq0 go n [p; c] with
          | Some ([p'; c'], n1) => Some (ECwv p' c', n1)
          | _ => None
          end
      | EMvCall _ _ | EMvLet _ _ _ | EMvValues _ => None
      end
  end.

(** *** L1: values and call-with-values *)

Section Seq1.
  (** jitopt.c:263-312. *)
  Variable F : expr -> option expr.
  Fixpoint seq1 (es : list expr) : option (list expr) :=
    match es with
    | [] => Some []
    | e :: r =>
        match F e, seq1 r with
        | Some e', Some r' => Some (e' :: r')
        | _, _ => None
        end
    end.
  Fixpoint clauses1 (cls : list clause) : option (list clause) :=
    match cls with
    | [] => Some []
    | (fm, body) :: r =>
        match seq1 body, clauses1 r with
        | Some b', Some r' => Some ((fm, b') :: r')
        | _, _ => None
        end
    end.
End Seq1.

(** Moving the consumer into the last expression, jitopt.c:357-367. *)
Fixpoint into_last (es : list expr) (c : expr) : list expr :=
  match es with
  | [] => []
  | [e] => [EMvCall e c]
  | e :: r => e :: into_last r c
  end.

(** The rewriting of [(mv-call e consumer)], jit_opt_L1_mvcall, jitopt.c:335-402:
    [inl] is the expression jit_opt_L1 is called on, [inr] the one returned as it
    is.  [(begin)] without expressions is not accepted by check_expr (C27). *)
Definition mvcall_expr (e consumer : expr) : expr + expr :=
  let last :=
    match consumer with
    | ELam fm body =>
        match req fm with
        | [] => inr (EMvCall e consumer)
        | _ => inl (EMvLet e fm (begin1 body))
        end
    | _ => inr (EMvCall e consumer)
    end in
  match e with
  | EApp (ELam (Formals [] None) body) _ => inl (EMvCall (begin1 body) consumer)
  | EMvValues es => inl (EApp consumer es)
  | EBegin es => inl (EBegin (into_last es consumer))
  | EIf a b c => inl (EIf a (EMvCall b consumer) (EMvCall c consumer))
  | ELam _ _ | EConst _ | EVar _ => inl (EApp consumer [e])
  | _ => last
  end.

(** jit_opt_L1, jitopt.c:405-470. *)
Fixpoint opt_L1 (f : nat) (e : expr) : option expr :=
  match f with
  | O => None
  | S f' =>
      let go := opt_L1 f' in
      let mvcall e c := match mvcall_expr e c with inl e1 => go e1 | inr e1 => Some e1 end in
      match e with
      | EConst _ | EUnbound | EVar _ => Some e
      | EDefine ids e1 => match go e1 with None => None | Some e1' => Some (EDefine ids e1') end
      | ESet x e1 => match go e1 with None => None | Some e1' => Some (ESet x e1') end
      | ELam fm body => match seq1 go body with None => None | Some b' => Some (ELam fm b') end
      | ECase cls => match clauses1 go cls with None => None | Some cls' => Some (ECase cls') end
      | EBegin es => match seq1 go es with None => None | Some es' => Some (EBegin es') end
      | EIf a b c =>
          match go a, go b, go c with
          | Some a', Some b', Some c' => Some (EIf a' b' c')
          | _, _, _ => None
          end
      | EApp g es =>
          match go g, seq1 go es with
          | Some g', Some es' => Some (EApp g' es')
          | _, _ => None
          end
      (* jit_opt_L1_values, jitopt.c:315-332 *)
      | EValues [] => Some (EMvValues [])
      | EValues [e1] => go e1
      | EValues es => match seq1 go es with None => None | Some es' => Some (EMvValues es') end
      | ECwv p c =>
          match go p, go c with
          | Some p', Some c' => mvcall (EApp p' []) c'
          | _, _ => None
          end
      | EMvCall e1 c => mvcall e1 c
      | EMvLet e1 fm b =>
          match go e1, go b with
          | Some e1', Some b' => Some (EMvLet e1' fm b')
          | _, _ => None
          end
      | EMvValues es => match seq1 go es with None => None | Some es' => Some (EMvValues es') end
      | ELet _ _ | ELetrec _ _ => None
      end
  end.

(** *** L2: immediate applications *)

(** The variable [values]: after L1 an application of the symbol [values] is a
    call like any other. *)
Definition values_id : ident := Id "values".

(** jit_opt_L2_app, jitopt.c:516-559, without the final call of jit_opt_L2. *)
Definition imm_expr (ids : list ident) (body args : list expr) : expr :=
  match args with
  | [] => begin1 body
  | [a] => EMvLet a (Formals ids None) (begin1 body)
  | _ => EMvLet (EApp (EVar values_id) args) (Formals ids None) (begin1 body)
  end.

(** jit_opt_L2, jitopt.c:562-623. *)
Fixpoint opt_L2 (f : nat) (e : expr) : option expr :=
  match f with
  | O => None
  | S f' =>
      let go := opt_L2 f' in
      match e with
      | EConst _ | EUnbound | EVar _ => Some e
      | EDefine ids e1 => match go e1 with None => None | Some e1' => Some (EDefine ids e1') end
      | ESet x e1 => match go e1 with None => None | Some e1' => Some (ESet x e1') end
      | ELam fm body => match seq1 go body with None => None | Some b' => Some (ELam fm b') end
      | ECase cls => match clauses1 go cls with None => None | Some cls' => Some (ECase cls') end
      | EMvCall p c =>
          match go p, go c with
          | Some p', Some c' => Some (EMvCall p' c')
          | _, _ => None
          end
      | EMvLet e1 fm b =>
          match go e1, go b with
          | Some e1', Some b' => Some (EMvLet e1' fm b')
          | _, _ => None
          end
      | EMvValues es => match seq1 go es with None => None | Some es' => Some (EMvValues es') end
      | EBegin es => match seq1 go es with None => None | Some es' => Some (EBegin es') end
      | EIf a b c =>
          match go a, go b, go c with
          | Some a', Some b', Some c' => Some (EIf a' b' c')
          | _, _, _ => None
          end
      | EApp (ELam (Formals ids None) body) args => go (imm_expr ids body args)
      | EApp g es =>
          match go g, seq1 go es with
          | Some g', Some es' => Some (EApp g' es')
          | _, _ => None
          end
      | ELet _ _ | ELetrec _ _ | EValues _ | ECwv _ _ => None
      end
  end.

(** The three passes in the order of compile_expr, jit.c:153-162. *)
Definition optimize (f n : nat) (e : expr) : option (expr * nat) :=
  match opt_L0 f n e with
  | None => None
  | Some (e0, n') =>
      match opt_L1 f e0 with
      | None => None
      | Some e1 => match opt_L2 f e1 with None => None | Some e2 => Some (e2, n') end
      end
  end.
