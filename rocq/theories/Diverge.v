(** Programs that do not end.  The semantics of Sem.v says what an expression
    yields; this file says which procedure calls its evaluation comes to on the
    way, whether or not it ever yields anything, and gives an interpreter that
    tells apart the three things an evaluation can do: yield, go on, or reach a
    point where the C code has no defined behaviour. *)
From Coq Require Import ZArith NArith Bool Ascii String List Arith Lia.
From Verif Require Import Base Heap HeapM Ast Sem SimThm EvalRun.
Import ListNotations.
Local Open Scope list_scope.

Section Calls.
  Variable prim : N -> list val -> heap -> option presult.
  Notation eval := (eval prim).
  Notation evseq := (evseq prim).
  Notation eval1 := (eval1 prim).
  Notation evargs := (evargs prim).
  Notation evbinds := (evbinds prim).
  Notation evrec := (evrec prim).
  Notation apply := (apply prim).

  (** [ncall top r s e f vs s']: the evaluation of [e] comes to the application
      of [f] to [vs], in store [s'], everything before it having been completed. *)
  Inductive ncall : bool -> lenv -> store -> expr -> val -> list val -> store -> Prop :=
  | NcDefine t r s ids e f vs s' : ncall t r s e f vs s' -> ncall t r s (EDefine ids e) f vs s'
  | NcSet t r s x e f vs s' : ncall t r s e f vs s' -> ncall t r s (ESet x e) f vs s'
  | NcBegin t r s es f vs s' : nseq t r s es f vs s' -> ncall t r s (EBegin es) f vs s'
  | NcIfTest t r s a b c f vs s' : ncall t r s a f vs s' -> ncall t r s (EIf a b c) f vs s'
  | NcIfTrue t r s a b c v s1 f vs s' :
      eval t r s a (RVals [v]) s1 -> v <> VFalse -> ncall t r s1 b f vs s' -> ncall t r s (EIf a b c) f vs s'
  | NcIfFalse t r s a b c s1 f vs s' :
      eval t r s a (RVals [VFalse]) s1 -> ncall t r s1 c f vs s' -> ncall t r s (EIf a b c) f vs s'
  | NcAppF t r s g es f vs s' : ncall t r s g f vs s' -> ncall t r s (EApp g es) f vs s'
  | NcAppA t r s g es gv s1 f vs s' :
      eval1 t r s g (inl gv) s1 -> nargs t r s1 es f vs s' -> ncall t r s (EApp g es) f vs s'
  | NcApp t r s g es f s1 vs s' :
      eval1 t r s g (inl f) s1 -> evargs t r s1 es (inl vs) s' -> ncall t r s (EApp g es) f vs s'
  | NcMvCallP t r s p c f vs s' : ncall t r s p f vs s' -> ncall t r s (EMvCall p c) f vs s'
  | NcMvCallC t r s p c ws s1 f vs s' :
      eval t r s p (RVals ws) s1 -> ncall t r s1 c f vs s' -> ncall t r s (EMvCall p c) f vs s'
  | NcMvCall t r s p c vs s1 f s' :
      eval t r s p (RVals vs) s1 -> eval1 t r s1 c (inl f) s' -> ncall t r s (EMvCall p c) f vs s'
  | NcMvLetE t r s e xs b f vs s' : ncall t r s e f vs s' -> ncall t r s (EMvLet e (Formals xs None) b) f vs s'
  | NcMvLetB t r s e xs b ws s1 f vs s' :
      eval t r s e (RVals ws) s1 -> List.length ws = List.length xs ->
      ncall t (bind_env xs (List.length (cells_of s1)) r) (add_cells ws s1) b f vs s' ->
      ncall t r s (EMvLet e (Formals xs None) b) f vs s'
  | NcMvValues t r s es f vs s' : nargs t r s es f vs s' -> ncall t r s (EMvValues es) f vs s'
  (** The source forms. *)
  | NcValues t r s es f vs s' : nargs t r s es f vs s' -> ncall t r s (EValues es) f vs s'
  | NcCwvP t r s p c f vs s' : ncall t r s p f vs s' -> ncall t r s (ECwv p c) f vs s'
  | NcCwvC t r s p c pv s1 f vs s' :
      eval1 t r s p (inl pv) s1 -> ncall t r s1 c f vs s' -> ncall t r s (ECwv p c) f vs s'
  | NcCwv1 t r s p c f s1 cv s' :
      eval1 t r s p (inl f) s1 -> eval1 t r s1 c (inl cv) s' -> ncall t r s (ECwv p c) f [] s'
  | NcCwv2 t r s p c pv s1 f s2 vs s' :
      eval1 t r s p (inl pv) s1 -> eval1 t r s1 c (inl f) s2 -> apply s2 pv [] (RVals vs) s' -> ncall t r s (ECwv p c) f vs s'
  | NcLetE t r s bs body f vs s' : nbinds t r s bs f vs s' -> ncall t r s (ELet bs body) f vs s'
  | NcLetB t r s bs body ws s1 f vs s' :
      evbinds t r s bs (inl ws) s1 ->
      nseq t (bind_env (List.concat (map fst bs)) (List.length (cells_of s1)) r) (add_cells ws s1) body f vs s' ->
      ncall t r s (ELet bs body) f vs s'
  | NcLetrecE t r s bs body f vs s' :
      nrec t (bind_env (List.concat (map fst bs)) (List.length (cells_of s)) r)
        (add_cells (repeat VUnbound (List.length (List.concat (map fst bs)))) s) (List.length (cells_of s)) bs f vs s' ->
      ncall t r s (ELetrec bs body) f vs s'
  | NcLetrecB t r s bs body s1 f vs s' :
      evrec t (bind_env (List.concat (map fst bs)) (List.length (cells_of s)) r)
        (add_cells (repeat VUnbound (List.length (List.concat (map fst bs)))) s) (List.length (cells_of s)) bs None s1 ->
      nseq t (bind_env (List.concat (map fst bs)) (List.length (cells_of s)) r) s1 body f vs s' ->
      ncall t r s (ELetrec bs body) f vs s'
  (** In a body. *)
  with nseq : bool -> lenv -> store -> list expr -> val -> list val -> store -> Prop :=
  | NsHere t r s e es f vs s' : ncall t r s e f vs s' -> nseq t r s (e :: es) f vs s'
  | NsNext t r s e e' es ws s1 f vs s' :
      eval t r s e (RVals ws) s1 -> nseq t r s1 (e' :: es) f vs s' -> nseq t r s (e :: e' :: es) f vs s'
  (** In arguments. *)
  with nargs : bool -> lenv -> store -> list expr -> val -> list val -> store -> Prop :=
  | NaHere t r s e es f vs s' : ncall t r s e f vs s' -> nargs t r s (e :: es) f vs s'
  | NaNext t r s e es v s1 f vs s' :
      eval1 t r s e (inl v) s1 -> nargs t r s1 es f vs s' -> nargs t r s (e :: es) f vs s'
  (** In the right-hand sides of let-values and letrec-values. *)
  with nbinds : bool -> lenv -> store -> list (list ident * expr) -> val -> list val -> store -> Prop :=
  | NbHere t r s ids e bs f vs s' : ncall t r s e f vs s' -> nbinds t r s ((ids, e) :: bs) f vs s'
  | NbNext t r s ids e bs ws s1 f vs s' :
      eval t r s e (RVals ws) s1 -> List.length ws = List.length ids -> nbinds t r s1 bs f vs s' ->
      nbinds t r s ((ids, e) :: bs) f vs s'
  with nrec : bool -> lenv -> store -> nat -> list (list ident * expr) -> val -> list val -> store -> Prop :=
  | NrHere t r s k ids e bs f vs s' : ncall t r s e f vs s' -> nrec t r s k ((ids, e) :: bs) f vs s'
  | NrNext t r s k ids e bs ws s1 f vs s' :
      eval t r s e (RVals ws) s1 -> List.length ws = List.length ids ->
      nrec t r (set_cells (seq k (List.length ids)) ws s1) (k + List.length ids) bs f vs s' ->
      nrec t r s k ((ids, e) :: bs) f vs s'.

  (** Applying [f] to [vs] comes to the application of [g] to [ws]: in the body of
      a procedure, or by [apply]. *)
  Inductive nstep : store -> val -> list val -> val -> list val -> store -> Prop :=
  | NpBody s f vs cls r fm body r1 s1 g ws s' :
      proc_at f (procs_of s) = Some (PClo cls r) -> select cls (List.length vs) = Some (fm, body) ->
      bind_clause fm vs r s = (r1, s1) -> nseq false r1 s1 body g ws s' ->
      nstep s f vs g ws s'
  | NpApply s f g mid l xs :
      proc_at f (procs_of s) = Some PApply -> proc_at g (procs_of s) <> None -> list_at (heap_of s) l xs ->
      nstep s f (g :: mid ++ [l]) g (mid ++ xs) s.

  (** [n] calls, each made while the one before it is under way. *)
  Inductive nchain : nat -> store -> val -> list val -> Prop :=
  | NcStop s f vs : nchain 0 s f vs
  | NcMore n s f vs g ws s' : nstep s f vs g ws s' -> nchain n s' g ws -> nchain (S n) s f vs.

  (** An expression whose evaluation does not end: calls nest, or follow each
      other in tail position, to any depth. *)
  Definition diverges (t : bool) (r : lenv) (s : store) (e : expr) : Prop :=
    forall n, exists f vs s', ncall t r s e f vs s' /\ nchain n s' f vs.

  (** A program that does not end: some expression does not, those before it
      having produced values. *)
  Inductive loops : store -> list expr -> Prop :=
  | LpHere s e es : diverges true [] s e -> loops s (e :: es)
  | LpNext s e es vs s1 : eval true [] s e (RVals vs) s1 -> loops s1 es -> loops s (e :: es).
End Calls.

(** ** The interpreter *)
Inductive out (A : Type) : Type :=
| Got (a : A) (s : store)             (* it yields [a] *)
| Going                               (* it goes on *)
| Wrong.                              (* it does something undefined *)
Arguments Got {A} a s.
Arguments Going {A}.
Arguments Wrong {A}.

Definition bindo {A B} (o : out A) (k : A -> store -> out B) : out B :=
  match o with Got a s => k a s | Going => Going | Wrong => Wrong end.

Section Ev.
  Variable prim : N -> list val -> heap -> option presult.

  Section Lists.
    Variable E : expr -> bool -> lenv -> store -> out res.
    Fixpoint ev_seq (es : list expr) (t : bool) (r : lenv) (s : store) : out res :=
      match es with
      | [] => Got (RVals [VVoid]) s
      | e :: es' =>
          match es' with
          | [] => E e t r s
          | _ => bindo (E e t r s) (fun x s1 => match x with RVals _ => ev_seq es' t r s1 | RErr y => Got (RErr y) s1 end)
          end
      end.
    Definition ev_one (e : expr) (t : bool) (r : lenv) (s : store) : out (val + err) :=
      bindo (E e t r s) (fun x s1 =>
        match x with
        | RVals [v] => Got (inl v) s1
        | RVals vs => Got (inr (ErrResults 1 (List.length vs))) s1
        | RErr y => Got (inr y) s1
        end).
    Fixpoint ev_args (es : list expr) (t : bool) (r : lenv) (s : store) : out (list val + err) :=
      match es with
      | [] => Got (inl []) s
      | e :: es' =>
          bindo (ev_one e t r s) (fun x s1 =>
            match x with
            | inl v => bindo (ev_args es' t r s1) (fun x s2 =>
                         match x with inl vs => Got (inl (v :: vs)) s2 | inr y => Got (inr y) s2 end)
            | inr y => Got (inr y) s1
            end)
      end.
    Fixpoint ev_binds (bs : list (list ident * expr)) (t : bool) (r : lenv) (s : store) : out (list val + err) :=
      match bs with
      | [] => Got (inl []) s
      | (ids, e) :: bs' =>
          bindo (E e t r s) (fun x s1 =>
            match x with
            | RVals vs =>
                if List.length vs =? List.length ids then
                  bindo (ev_binds bs' t r s1) (fun x s2 =>
                    match x with inl ws => Got (inl (vs ++ ws)) s2 | inr y => Got (inr y) s2 end)
                else Got (inr (ErrResults (List.length ids) (List.length vs))) s1
            | RErr y => Got (inr y) s1
            end)
      end.
    Fixpoint ev_rec (bs : list (list ident * expr)) (t : bool) (r : lenv) (s : store) (k : nat) : out (option err) :=
      match bs with
      | [] => Got None s
      | (ids, e) :: bs' =>
          bindo (E e t r s) (fun x s1 =>
            match x with
            | RVals vs =>
                if List.length vs =? List.length ids then
                  ev_rec bs' t r (set_cells (seq k (List.length ids)) vs s1) (k + List.length ids)
                else Got (Some (ErrResults (List.length ids) (List.length vs))) s1
            | RErr y => Got (Some y) s1
            end)
      end.
  End Lists.

  Section Expr.
    (** What an application does. *)
    Variable A : store -> val -> list val -> out res.
    Fixpoint ev (e : expr) (t : bool) (r : lenv) (s : store) {struct e} : out res :=
      match e with
      | EConst v => Got (RVals [v]) s
      | EUnbound => Got (RVals [VUnbound]) s
      | EVar x =>
          match lookup_env x r with
          | Some l =>
              match nth_error (cells_of s) l with
              | Some v => if unboundb v then Got (RErr (ErrInit x)) s else Got (RVals [v]) s
              | None => Wrong
              end
          | None =>
              match glob_ref x (glob_of s) with
              | Some v => if unboundb v then Got (RErr (ErrInit x)) s else Got (RVals [v]) s
              | None => Got (RErr (ErrInit x)) s
              end
          end
      | EDefine ids e1 =>
          bindo (ev e1 t r s) (fun x s1 =>
            match x with
            | RVals vs =>
                if List.length vs =? List.length ids then Got (RVals [VVoid]) (set_globs ids vs s1)
                else Got (RErr (ErrResults (List.length ids) (List.length vs))) s1
            | RErr y => Got (RErr y) s1
            end)
      | ESet x e1 =>
          bindo (ev e1 t r s) (fun o s1 =>
            match o with
            | RVals [v] =>
                match lookup_env x r with
                | Some l => if l <? List.length (cells_of s1) then Got (RVals [VVoid]) (set_cell l v s1) else Wrong
                | None =>
                    if t then match glob_ref x (glob_of s1) with Some _ => Got (RVals [v]) (set_glob x v s1) | None => Wrong end
                    else Got (RVals [VVoid]) (set_glob x v s1)
                end
            | RVals _ => Wrong
            | RErr y => Got (RErr y) s1
            end)
      | ELam fm body => let '(v, s1) := new_proc (PClo [(fm, body)] r) s in Got (RVals [v]) s1
      | ECase cls => match cls with [] => Wrong | _ => let '(v, s1) := new_proc (PClo cls r) s in Got (RVals [v]) s1 end
      | EBegin es => ev_seq ev es t r s
      | EIf a b c =>
          bindo (ev a t r s) (fun o s1 =>
            match o with
            | RVals [v] => if falseb v then ev c t r s1 else ev b t r s1
            | RVals _ => Wrong
            | RErr y => Got (RErr y) s1
            end)
      | EApp g es =>
          bindo (ev_one ev g t r s) (fun o s1 =>
            match o with
            | inl fv => bindo (ev_args ev es t r s1) (fun o s2 => match o with inl vs => A s2 fv vs | inr y => Got (RErr y) s2 end)
            | inr y => Got (RErr y) s1
            end)
      | EMvCall p c =>
          bindo (ev p t r s) (fun o s1 =>
            match o with
            | RVals vs => bindo (ev_one ev c t r s1) (fun o s2 => match o with inl fv => A s2 fv vs | inr y => Got (RErr y) s2 end)
            | RErr y => Got (RErr y) s1
            end)
      | EMvLet e1 (Formals xs o) b =>
          match o with
          | Some _ => Wrong
          | None =>
              bindo (ev e1 t r s) (fun o s1 =>
                match o with
                | RVals vs =>
                    if List.length vs =? List.length xs then ev b t (bind_env xs (List.length (cells_of s1)) r) (add_cells vs s1)
                    else Got (RErr (ErrResults (List.length xs) (List.length vs))) s1
                | RErr y => Got (RErr y) s1
                end)
          end
      | EMvValues es | EValues es =>
          bindo (ev_args ev es t r s) (fun o s1 => match o with inl vs => Got (RVals vs) s1 | inr y => Got (RErr y) s1 end)
      | ECwv p c =>
          bindo (ev_one ev p t r s) (fun o s1 =>
            match o with
            | inl pv =>
                bindo (ev_one ev c t r s1) (fun o s2 =>
                  match o with
                  | inl cv => bindo (A s2 pv []) (fun o s3 => match o with RVals vs => A s3 cv vs | RErr y => Got (RErr y) s3 end)
                  | inr y => Got (RErr y) s2
                  end)
            | inr y => Got (RErr y) s1
            end)
      | ELet bs body =>
          bindo (ev_binds ev bs t r s) (fun o s1 =>
            match o with
            | inl vs => ev_seq ev body t (bind_env (List.concat (map fst bs)) (List.length (cells_of s1)) r) (add_cells vs s1)
            | inr y => Got (RErr y) s1
            end)
      | ELetrec bs body =>
          let base := List.length (cells_of s) in
          let r1 := bind_env (List.concat (map fst bs)) base r in
          bindo (ev_rec ev bs t r1 (add_cells (repeat VUnbound (List.length (List.concat (map fst bs)))) s) base) (fun o s1 =>
            match o with
            | None => ev_seq ev body t r1 s1
            | Some y => Got (RErr y) s1
            end)
      end.
  End Expr.

  (** Applications, nested to depth [n] at most. *)
  Fixpoint ap (n : nat) (s : store) (fv : val) (vs : list val) {struct n} : out res :=
    match n with
    | O => Going
    | S n' =>
        match proc_at fv (procs_of s) with
        | None => Got (RErr (ErrNotProc fv)) s
        | Some (PClo cls r) =>
            match select cls (List.length vs) with
            | Some (fm, body) => let '(r1, s1) := bind_clause fm vs r s in ev_seq (ev (ap n')) body false r1 s1
            | None => Got (RErr (ErrArity fv (List.length vs))) s
            end
        | Some (PPrim p k) =>
            if List.length vs =? k then
              if List.length vs <=? 6 then
                match prim p vs (heap_of s) with
                | Some (PrimVal v h) => Got (RVals [v]) (set_heap h s)
                | Some (PrimErr e h) => Got (RErr (ErrPrim e)) (set_heap h s)
                | None => Wrong
                end
              else Wrong
            else Got (RErr (ErrArity fv (List.length vs))) s
        | Some PValues => Got (RVals vs) s
        | Some PIdentity => match vs with [v] => Got (RVals [v]) s | _ => Got (RErr (ErrArity fv (List.length vs))) s end
        | Some PVoid => match vs with [] => Got (RVals [VVoid]) s | _ => Got (RErr (ErrArity fv (List.length vs))) s end
        | Some PApply =>
            match vs with
            | g :: args =>
                match split_last args with
                | Some (mid, l) =>
                    match proc_at g (procs_of s) with
                    | None => Got (RErr (ErrApply g)) s
                    | Some _ =>
                        match elems_of (S (List.length (heap_of s))) (heap_of s) l with
                        | Some (inl xs) => ap n' s g (mid ++ xs)
                        | Some (inr _) => Got (RErr (ErrApply l)) s
                        | None => Wrong   (* a circular list *)
                        end
                    end
                | None => Got (RErr (ErrArity fv (List.length vs))) s
                end
            | [] => Got (RErr (ErrArity fv (List.length vs))) s
            end
        | Some PRaise => Wrong            (* continuations and handlers, see DESIGN.md *)
        end
    end.

  Definition interp (n : nat) (s : store) (e : expr) : out res := ev (ap n) e true [] s.

  (** A program that goes wrong: some expression does, those before it having
      produced values. *)
  Inductive goes_wrong : store -> list expr -> Prop :=
  | GwHere s e es n : interp n s e = Wrong -> goes_wrong s (e :: es)
  | GwNext s e es vs s1 : eval prim true [] s e (RVals vs) s1 -> goes_wrong s1 es -> goes_wrong s (e :: es).
End Ev.
