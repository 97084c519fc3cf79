(** The meaning of core expressions: a big-step, call-by-value, left-to-right
    semantics with a store.  This is the specification the compiler and the
    optimiser are compared with; it knows nothing of code, registers or slots. *)
From Coq Require Import ZArith NArith Bool Ascii String List Arith Lia.
From Verif Require Import Base Heap HeapM Ast.
Import ListNotations.
Local Open Scope list_scope.

(** Errors.  Messages are reduced to their kind and the objects they mention. *)
Inductive err : Type :=
| ErrInit (x : ident)                 (* cannot use before initialization *)
| ErrNotProc (v : val)                (* expected procedure *)
| ErrArity (f : val) (n : nat)        (* arity mismatch *)
| ErrResults (expected actual : nat)  (* result arity mismatch *)
| ErrApply (v : val)                  (* apply: type violation *)
| ErrPrim (e : herr).                 (* raised by a primitive *)

Inductive res : Type :=
| RVals (vs : list val)               (* any number of values *)
| RErr (e : err).

(** Environments map local variables to cells. *)
Definition lenv := list (ident * nat).
Fixpoint lookup_env (x : ident) (r : lenv) : option nat :=
  match r with
  | [] => None
  | (y, l) :: r' => if ident_eqb y x then Some l else lookup_env x r'
  end.

Definition globals := list (ident * val).
Fixpoint glob_ref (x : ident) (g : globals) : option val :=
  match g with
  | [] => None
  | (y, v) :: r => if ident_eqb y x then Some v else glob_ref x r
  end.
Fixpoint glob_set (x : ident) (v : val) (g : globals) : globals :=
  match g with
  | [] => [(x, v)]
  | (y, w) :: r => if ident_eqb y x then (y, v) :: r else (y, w) :: glob_set x v r
  end.

(** Procedures: closures and the procedures provided by the system. *)
Inductive sproc : Type :=
| PClo (cls : list clause) (r : lenv)
| PPrim (p : N) (arity : nat)         (* a C function of fixed arity *)
| PValues
| PApply
| PIdentity
| PVoid
| PRaise.

Definition procs := list (nat * sproc).
Fixpoint proc_ref (l : nat) (ps : procs) : option sproc :=
  match ps with
  | [] => None
  | (k, p) :: r => if Nat.eqb k l then Some p else proc_ref l r
  end.
Definition proc_at (v : val) (ps : procs) : option sproc :=
  match v with VPtr l => proc_ref l ps | _ => None end.

(** The store: the object heap (Heap.v), the procedures by address, the cells of
    local variables and the global variables. *)
Record store : Type := Store { heap_of : heap; procs_of : procs; cells_of : list val; glob_of : globals }.

(** Cells of the variables [xs], holding [vs]: new cells are added at the end. *)
Fixpoint bind_env (xs : list ident) (base : nat) (r : lenv) : lenv :=
  match xs with
  | [] => r
  | x :: ys => bind_env ys (S base) ((x, base) :: r)
  end.

(** A list holding [vs], in new pairs. *)
Fixpoint list_cells (base : nat) (vs : list val) : heap :=
  match vs with
  | [] => []
  | v :: r => CPair v (match r with [] => VNull | _ => VPtr (S base) end) :: list_cells (S base) r
  end.
Definition new_list (vs : list val) (h : heap) : val * heap :=
  (match vs with [] => VNull | _ => VPtr (List.length h) end, h ++ list_cells (List.length h) vs).

(** A chain of pairs that ends in something other than the empty list. *)
Inductive improper (h : heap) : val -> Prop :=
| ImpEnd v : pair_at h v = None -> v <> VNull -> improper h v
| ImpCons v a d : pair_at h v = Some (a, d) -> improper h d -> improper h v.

(** The clause that takes [n] arguments. *)
Definition accepts (fm : formals) (n : nat) : bool :=
  match rest fm with
  | None => n =? List.length (req fm)
  | Some _ => List.length (req fm) <=? n
  end.
Fixpoint select (cls : list clause) (n : nat) : option clause :=
  match cls with
  | [] => None
  | c :: r => if accepts (fst c) n then Some c else select r n
  end.

(** Binding the parameters of a clause to arguments. *)
Definition bind_clause (fm : formals) (vs : list val) (r : lenv) (s : store) : lenv * store :=
  let k := List.length (req fm) in
  let base := List.length (cells_of s) in
  let r1 := bind_env (req fm) base r in
  match rest fm with
  | None => (r1, Store (heap_of s) (procs_of s) (cells_of s ++ vs) (glob_of s))
  | Some x =>
      let '(l, h) := new_list (skipn k vs) (heap_of s) in
      ((x, base + k) :: r1, Store h (procs_of s) (cells_of s ++ firstn k vs ++ [l]) (glob_of s))
  end.

Fixpoint set_nth {A} (n : nat) (a : A) (l : list A) : list A :=
  match l, n with
  | [], _ => []
  | _ :: r, O => a :: r
  | x :: r, S m => x :: set_nth m a r
  end.

Definition set_cell (l : nat) (v : val) (s : store) : store :=
  Store (heap_of s) (procs_of s) (set_nth l v (cells_of s)) (glob_of s).
Definition set_glob (x : ident) (v : val) (s : store) : store :=
  Store (heap_of s) (procs_of s) (cells_of s) (glob_set x v (glob_of s)).
Fixpoint set_globs (xs : list ident) (vs : list val) (s : store) : store :=
  match xs, vs with
  | x :: xr, v :: vr => set_globs xr vr (set_glob x v s)
  | _, _ => s
  end.
Definition add_cells (vs : list val) (s : store) : store :=
  Store (heap_of s) (procs_of s) (cells_of s ++ vs) (glob_of s).
Definition set_heap (h : heap) (s : store) : store :=
  Store h (procs_of s) (cells_of s) (glob_of s).
(** A new procedure object. *)
Definition new_proc (p : sproc) (s : store) : val * store :=
  let l := List.length (heap_of s) in
  (VPtr l, Store (heap_of s ++ [COther 0]) ((l, p) :: procs_of s) (cells_of s) (glob_of s)).

Fixpoint set_cells (ls : list nat) (vs : list val) (s : store) : store :=
  match ls, vs with
  | l :: lr, v :: vr => set_cells lr vr (set_cell l v s)
  | _, _ => s
  end.

(** What a C primitive does: a value, an error, or undefined behaviour ([None]). *)
Inductive presult : Type :=
| PrimVal (v : val) (h : heap)
| PrimErr (e : herr) (h : heap).

Section Eval.
  (** The primitives are arbitrary functions of their arguments and the heap. *)
  Variable prim : N -> list val -> heap -> option presult.

  (** [eval top r s e x s']: in environment [r] and store [s], [e] yields [x] and
      leaves [s'].  [top] holds outside of any procedure body: only there does
      [set!] on a global variable require it to exist and return the value
      assigned.  There is no rule for an [if] test or a [set!] whose expression
      does not produce exactly one value. *)
  Inductive eval : bool -> lenv -> store -> expr -> res -> store -> Prop :=
  | EvConst t r s v : eval t r s (EConst v) (RVals [v]) s
  | EvUnbound t r s : eval t r s EUnbound (RVals [VUnbound]) s
  | EvLocal t r s x l v :
      lookup_env x r = Some l -> nth_error (cells_of s) l = Some v -> v <> VUnbound ->
      eval t r s (EVar x) (RVals [v]) s
  | EvLocalInit t r s x l :
      lookup_env x r = Some l -> nth_error (cells_of s) l = Some VUnbound ->
      eval t r s (EVar x) (RErr (ErrInit x)) s
  | EvGlobal t r s x v :
      lookup_env x r = None -> glob_ref x (glob_of s) = Some v -> v <> VUnbound ->
      eval t r s (EVar x) (RVals [v]) s
  | EvGlobalInit t r s x :
      lookup_env x r = None -> glob_ref x (glob_of s) = None \/ glob_ref x (glob_of s) = Some VUnbound ->
      eval t r s (EVar x) (RErr (ErrInit x)) s
  | EvDefine t r s ids e vs s1 :
      eval t r s e (RVals vs) s1 -> List.length vs = List.length ids ->
      eval t r s (EDefine ids e) (RVals [VVoid]) (set_globs ids vs s1)
  | EvDefineBad t r s ids e vs s1 :
      eval t r s e (RVals vs) s1 -> List.length vs <> List.length ids ->
      eval t r s (EDefine ids e) (RErr (ErrResults (List.length ids) (List.length vs))) s1
  | EvDefineErr t r s ids e x s1 :
      eval t r s e (RErr x) s1 -> eval t r s (EDefine ids e) (RErr x) s1
  | EvSetLocal t r s x e v s1 l :
      eval t r s e (RVals [v]) s1 -> lookup_env x r = Some l -> l < List.length (cells_of s1) ->
      eval t r s (ESet x e) (RVals [VVoid]) (set_cell l v s1)
  | EvSetGlobal r s x e v s1 w :
      eval true r s e (RVals [v]) s1 -> lookup_env x r = None -> glob_ref x (glob_of s1) = Some w ->
      eval true r s (ESet x e) (RVals [v]) (set_glob x v s1)
  | EvSetGlobalIn r s x e v s1 :
      eval false r s e (RVals [v]) s1 -> lookup_env x r = None ->
      eval false r s (ESet x e) (RVals [VVoid]) (set_glob x v s1)
  | EvSetErr t r s x e y s1 :
      eval t r s e (RErr y) s1 -> eval t r s (ESet x e) (RErr y) s1
  | EvLam t r s fm body v s1 :
      new_proc (PClo [(fm, body)] r) s = (v, s1) -> eval t r s (ELam fm body) (RVals [v]) s1
  | EvCase t r s cls v s1 :
      cls <> [] -> new_proc (PClo cls r) s = (v, s1) -> eval t r s (ECase cls) (RVals [v]) s1
  | EvBegin t r s es x s1 : evseq t r s es x s1 -> eval t r s (EBegin es) x s1
  | EvIfTrue t r s a b c v s1 x s2 :
      eval t r s a (RVals [v]) s1 -> v <> VFalse -> eval t r s1 b x s2 -> eval t r s (EIf a b c) x s2
  | EvIfFalse t r s a b c s1 x s2 :
      eval t r s a (RVals [VFalse]) s1 -> eval t r s1 c x s2 -> eval t r s (EIf a b c) x s2
  | EvIfErr t r s a b c y s1 :
      eval t r s a (RErr y) s1 -> eval t r s (EIf a b c) (RErr y) s1
  | EvApp t r s f es fv s1 vs s2 x s3 :
      eval1 t r s f (inl fv) s1 -> evargs t r s1 es (inl vs) s2 -> apply s2 fv vs x s3 ->
      eval t r s (EApp f es) x s3
  | EvAppErrF t r s f es y s1 :
      eval1 t r s f (inr y) s1 -> eval t r s (EApp f es) (RErr y) s1
  | EvAppErrA t r s f es fv s1 y s2 :
      eval1 t r s f (inl fv) s1 -> evargs t r s1 es (inr y) s2 -> eval t r s (EApp f es) (RErr y) s2
  | EvMvCall t r s p c vs s1 fv s2 x s3 :
      eval t r s p (RVals vs) s1 -> eval1 t r s1 c (inl fv) s2 -> apply s2 fv vs x s3 ->
      eval t r s (EMvCall p c) x s3
  | EvMvCallErrP t r s p c y s1 :
      eval t r s p (RErr y) s1 -> eval t r s (EMvCall p c) (RErr y) s1
  | EvMvCallErrC t r s p c vs s1 y s2 :
      eval t r s p (RVals vs) s1 -> eval1 t r s1 c (inr y) s2 -> eval t r s (EMvCall p c) (RErr y) s2
  | EvMvLet t r s e xs body vs s1 x s2 :
      eval t r s e (RVals vs) s1 -> List.length vs = List.length xs ->
      eval t (bind_env xs (List.length (cells_of s1)) r) (add_cells vs s1) body x s2 ->
      eval t r s (EMvLet e (Formals xs None) body) x s2
  | EvMvLetBad t r s e xs body vs s1 :
      eval t r s e (RVals vs) s1 -> List.length vs <> List.length xs ->
      eval t r s (EMvLet e (Formals xs None) body) (RErr (ErrResults (List.length xs) (List.length vs))) s1
  | EvMvLetErr t r s e xs body y s1 :
      eval t r s e (RErr y) s1 -> eval t r s (EMvLet e (Formals xs None) body) (RErr y) s1
  | EvMvValues t r s es vs s1 :
      evargs t r s es (inl vs) s1 -> eval t r s (EMvValues es) (RVals vs) s1
  | EvMvValuesErr t r s es y s1 :
      evargs t r s es (inr y) s1 -> eval t r s (EMvValues es) (RErr y) s1
  (** The source forms removed by the first passes. *)
  | EvValues t r s es vs s1 :
      evargs t r s es (inl vs) s1 -> eval t r s (EValues es) (RVals vs) s1
  | EvValuesErr t r s es y s1 :
      evargs t r s es (inr y) s1 -> eval t r s (EValues es) (RErr y) s1
  | EvCwv t r s p c pv s1 cv s2 vs s3 x s4 :
      eval1 t r s p (inl pv) s1 -> eval1 t r s1 c (inl cv) s2 ->
      apply s2 pv [] (RVals vs) s3 -> apply s3 cv vs x s4 ->
      eval t r s (ECwv p c) x s4
  | EvCwvErrP t r s p c y s1 :
      eval1 t r s p (inr y) s1 -> eval t r s (ECwv p c) (RErr y) s1
  | EvCwvErrC t r s p c pv s1 y s2 :
      eval1 t r s p (inl pv) s1 -> eval1 t r s1 c (inr y) s2 -> eval t r s (ECwv p c) (RErr y) s2
  | EvCwvErrA t r s p c pv s1 cv s2 y s3 :
      eval1 t r s p (inl pv) s1 -> eval1 t r s1 c (inl cv) s2 ->
      apply s2 pv [] (RErr y) s3 -> eval t r s (ECwv p c) (RErr y) s3
  | EvLet t r s bs body vs s1 x s2 :
      evbinds t r s bs (inl vs) s1 ->
      evseq t (bind_env (List.concat (map fst bs)) (List.length (cells_of s1)) r) (add_cells vs s1) body x s2 ->
      eval t r s (ELet bs body) x s2
  | EvLetErr t r s bs body y s1 :
      evbinds t r s bs (inr y) s1 -> eval t r s (ELet bs body) (RErr y) s1
  | EvLetrec t r s bs body base r1 s1 x s2 :
      base = List.length (cells_of s) ->
      r1 = bind_env (List.concat (map fst bs)) base r ->
      evrec t r1 (add_cells (repeat VUnbound (List.length (List.concat (map fst bs)))) s) base bs None s1 ->
      evseq t r1 s1 body x s2 ->
      eval t r s (ELetrec bs body) x s2
  | EvLetrecErr t r s bs body base r1 y s1 :
      base = List.length (cells_of s) ->
      r1 = bind_env (List.concat (map fst bs)) base r ->
      evrec t r1 (add_cells (repeat VUnbound (List.length (List.concat (map fst bs)))) s) base bs (Some y) s1 ->
      eval t r s (ELetrec bs body) (RErr y) s1
  (** A body: all but the last value are dropped. *)
  with evseq : bool -> lenv -> store -> list expr -> res -> store -> Prop :=
  | EsNil t r s : evseq t r s [] (RVals [VVoid]) s
  | EsLast t r s e x s1 : eval t r s e x s1 -> evseq t r s [e] x s1
  | EsCons t r s e e' es vs s1 x s2 :
      eval t r s e (RVals vs) s1 -> evseq t r s1 (e' :: es) x s2 -> evseq t r s (e :: e' :: es) x s2
  | EsErr t r s e e' es y s1 :
      eval t r s e (RErr y) s1 -> evseq t r s (e :: e' :: es) (RErr y) s1
  (** An expression that must produce one value. *)
  with eval1 : bool -> lenv -> store -> expr -> val + err -> store -> Prop :=
  | E1Val t r s e v s1 : eval t r s e (RVals [v]) s1 -> eval1 t r s e (inl v) s1
  | E1Bad t r s e vs s1 :
      eval t r s e (RVals vs) s1 -> List.length vs <> 1 -> eval1 t r s e (inr (ErrResults 1 (List.length vs))) s1
  | E1Err t r s e y s1 : eval t r s e (RErr y) s1 -> eval1 t r s e (inr y) s1
  (** Arguments, from left to right. *)
  with evargs : bool -> lenv -> store -> list expr -> list val + err -> store -> Prop :=
  | EaNil t r s : evargs t r s [] (inl []) s
  | EaCons t r s e es v s1 vs s2 :
      eval1 t r s e (inl v) s1 -> evargs t r s1 es (inl vs) s2 -> evargs t r s (e :: es) (inl (v :: vs)) s2
  | EaErr t r s e es y s1 :
      eval1 t r s e (inr y) s1 -> evargs t r s (e :: es) (inr y) s1
  | EaErrRest t r s e es v s1 y s2 :
      eval1 t r s e (inl v) s1 -> evargs t r s1 es (inr y) s2 -> evargs t r s (e :: es) (inr y) s2
  (** The right-hand sides of let-values: all their values. *)
  with evbinds : bool -> lenv -> store -> list (list ident * expr) -> list val + err -> store -> Prop :=
  | EbNil t r s : evbinds t r s [] (inl []) s
  | EbCons t r s ids e bs vs s1 ws s2 :
      eval t r s e (RVals vs) s1 -> List.length vs = List.length ids ->
      evbinds t r s1 bs (inl ws) s2 -> evbinds t r s ((ids, e) :: bs) (inl (vs ++ ws)) s2
  | EbErrRest t r s ids e bs vs s1 y s2 :
      eval t r s e (RVals vs) s1 -> List.length vs = List.length ids ->
      evbinds t r s1 bs (inr y) s2 -> evbinds t r s ((ids, e) :: bs) (inr y) s2
  | EbBad t r s ids e bs vs s1 :
      eval t r s e (RVals vs) s1 -> List.length vs <> List.length ids ->
      evbinds t r s ((ids, e) :: bs) (inr (ErrResults (List.length ids) (List.length vs))) s1
  | EbErr t r s ids e bs y s1 :
      eval t r s e (RErr y) s1 -> evbinds t r s ((ids, e) :: bs) (inr y) s1
  (** The right-hand sides of letrec-values: each is evaluated and assigned. *)
  with evrec : bool -> lenv -> store -> nat -> list (list ident * expr) -> option err -> store -> Prop :=
  | ErNil t r s k : evrec t r s k [] None s
  | ErCons t r s k ids e bs vs s1 o s2 :
      eval t r s e (RVals vs) s1 -> List.length vs = List.length ids ->
      evrec t r (set_cells (seq k (List.length ids)) vs s1) (k + List.length ids) bs o s2 ->
      evrec t r s k ((ids, e) :: bs) o s2
  | ErBad t r s k ids e bs vs s1 :
      eval t r s e (RVals vs) s1 -> List.length vs <> List.length ids ->
      evrec t r s k ((ids, e) :: bs) (Some (ErrResults (List.length ids) (List.length vs))) s1
  | ErErr t r s k ids e bs y s1 :
      eval t r s e (RErr y) s1 -> evrec t r s k ((ids, e) :: bs) (Some y) s1
  (** Procedure application. *)
  with apply : store -> val -> list val -> res -> store -> Prop :=
  | ApClo s f vs cls r fm body r1 s1 x s2 :
      proc_at f (procs_of s) = Some (PClo cls r) -> select cls (List.length vs) = Some (fm, body) ->
      bind_clause fm vs r s = (r1, s1) -> evseq false r1 s1 body x s2 ->
      apply s f vs x s2
  | ApCloArity s f vs cls r :
      proc_at f (procs_of s) = Some (PClo cls r) -> select cls (List.length vs) = None ->
      apply s f vs (RErr (ErrArity f (List.length vs))) s
  | ApPrim s f vs p v h :
      proc_at f (procs_of s) = Some (PPrim p (List.length vs)) -> List.length vs <= 6 ->
      prim p vs (heap_of s) = Some (PrimVal v h) ->
      apply s f vs (RVals [v]) (set_heap h s)
  | ApPrimErr s f vs p e h :
      proc_at f (procs_of s) = Some (PPrim p (List.length vs)) -> List.length vs <= 6 ->
      prim p vs (heap_of s) = Some (PrimErr e h) ->
      apply s f vs (RErr (ErrPrim e)) (set_heap h s)
  | ApPrimArity s f vs p n :
      proc_at f (procs_of s) = Some (PPrim p n) -> List.length vs <> n ->
      apply s f vs (RErr (ErrArity f (List.length vs))) s
  | ApValues s f vs :
      proc_at f (procs_of s) = Some PValues -> apply s f vs (RVals vs) s
  | ApIdentity s f v :
      proc_at f (procs_of s) = Some PIdentity -> apply s f [v] (RVals [v]) s
  | ApIdentityArity s f vs :
      proc_at f (procs_of s) = Some PIdentity -> List.length vs <> 1 ->
      apply s f vs (RErr (ErrArity f (List.length vs))) s
  | ApVoid s f :
      proc_at f (procs_of s) = Some PVoid -> apply s f [] (RVals [VVoid]) s
  | ApVoidArity s f vs :
      proc_at f (procs_of s) = Some PVoid -> List.length vs <> 0 ->
      apply s f vs (RErr (ErrArity f (List.length vs))) s
  | ApApply s f g mid l elems x s1 :
      proc_at f (procs_of s) = Some PApply -> proc_at g (procs_of s) <> None ->
      list_at (heap_of s) l elems ->
      apply s g (mid ++ elems) x s1 ->
      apply s f (g :: mid ++ [l]) x s1
  | ApApplyArity s f vs :
      proc_at f (procs_of s) = Some PApply -> List.length vs < 2 ->
      apply s f vs (RErr (ErrArity f (List.length vs))) s
  | ApApplyProc s f g vs :
      proc_at f (procs_of s) = Some PApply -> proc_at g (procs_of s) = None -> vs <> [] ->
      apply s f (g :: vs) (RErr (ErrApply g)) s
  | ApApplyList s f g mid l :
      proc_at f (procs_of s) = Some PApply -> proc_at g (procs_of s) <> None -> improper (heap_of s) l ->
      apply s f (g :: mid ++ [l]) (RErr (ErrApply l)) s
  | ApNotProc s f vs :
      proc_at f (procs_of s) = None -> apply s f vs (RErr (ErrNotProc f)) s.
End Eval.

Scheme eval_mut := Induction for eval Sort Prop
  with evseq_mut := Induction for evseq Sort Prop
  with eval1_mut := Induction for eval1 Sort Prop
  with evargs_mut := Induction for evargs Sort Prop
  with evbinds_mut := Induction for evbinds Sort Prop
  with evrec_mut := Induction for evrec Sort Prop
  with apply_mut := Induction for apply Sort Prop.
Combined Scheme eval_all from eval_mut, evseq_mut, eval1_mut, evargs_mut, evbinds_mut, evrec_mut, apply_mut.
