(** Core expressions.

    The compiler works on S-expressions and dispatches on the symbol at the head
    of a pair (jitopt.c:206-255, 405-470, 562-623; jitanalyze.c:108-169,
    231-291; jitcompile.c:436-497): all passes agree on the forms below.  The
    model works on the parsed forms; Check.v relates S-expressions to them. *)
From Coq Require Import ZArith NArith Bool Ascii String List Arith Lia.
From Verif Require Import Base Heap.
Import ListNotations.
Local Open Scope list_scope.

(** Identifiers: interned symbols and the uninterned ones made by [Mgensym]
    (symbol.c; jitopt.c:28-41), which differ from every other symbol. *)
Inductive ident : Type :=
| Id (name : string)
| Gen (n : nat).

Definition ident_eqb (x y : ident) : bool :=
  match x, y with
  | Id a, Id b => String.eqb a b
  | Gen a, Gen b => Nat.eqb a b
  | _, _ => false
  end.

Lemma ident_eqb_spec x y : reflect (x = y) (ident_eqb x y).
Proof.
  destruct x as [a|a], y as [b|b]; simpl; try (constructor; congruence).
  - destruct (String.eqb_spec a b); constructor; congruence.
  - destruct (Nat.eqb_spec a b); constructor; congruence.
Qed.

Lemma ident_eqb_refl x : ident_eqb x x = true.
Proof. destruct (ident_eqb_spec x x); congruence. Qed.

Definition ident_dec (x y : ident) : {x = y} + {x <> y}.
Proof. destruct (ident_eqb_spec x y); [left|right]; auto. Defined.

(** Formal parameters [(x ... . rest)]. *)
Record formals : Type := Formals { req : list ident; rest : option ident }.

Inductive expr : Type :=
| EConst (v : val)                       (* self-evaluating data, quote, quote-syntax *)
| EUnbound                               (* #%make-unbound *)
| EVar (x : ident)
| EDefine (ids : list ident) (e : expr)  (* define-values *)
| ESet (x : ident) (e : expr)            (* set! *)
| ELam (fm : formals) (body : list expr)
| ECase (cls : list (formals * list expr))
| EBegin (es : list expr)
| EIf (a b c : expr)
| EApp (f : expr) (args : list expr)
| ELet (bs : list (list ident * expr)) (body : list expr)      (* let-values *)
| ELetrec (bs : list (list ident * expr)) (body : list expr)   (* letrec-values *)
| EValues (es : list expr)               (* an application whose head is the symbol values *)
| ECwv (p c : expr)                      (* ... whose head is the symbol call-with-values *)
| EMvCall (p c : expr)                   (* #%mv-call *)
| EMvLet (e : expr) (ids : formals) (body : expr)  (* #%mv-let *)
| EMvValues (es : list expr).            (* #%mv-values *)

Definition clause := (formals * list expr)%type.

(** Induction over expressions, their lists and their clauses. *)
Section Ind.
  Variable P : expr -> Prop.
  Hypothesis HConst : forall v, P (EConst v).
  Hypothesis HUnbound : P EUnbound.
  Hypothesis HVar : forall x, P (EVar x).
  Hypothesis HDefine : forall ids e, P e -> P (EDefine ids e).
  Hypothesis HSet : forall x e, P e -> P (ESet x e).
  Hypothesis HLam : forall fm body, Forall P body -> P (ELam fm body).
  Hypothesis HCase : forall cls, Forall (fun c => Forall P (snd c)) cls -> P (ECase cls).
  Hypothesis HBegin : forall es, Forall P es -> P (EBegin es).
  Hypothesis HIf : forall a b c, P a -> P b -> P c -> P (EIf a b c).
  Hypothesis HApp : forall f args, P f -> Forall P args -> P (EApp f args).
  Hypothesis HLet : forall bs body, Forall (fun b => P (snd b)) bs -> Forall P body -> P (ELet bs body).
  Hypothesis HLetrec : forall bs body, Forall (fun b => P (snd b)) bs -> Forall P body -> P (ELetrec bs body).
  Hypothesis HValues : forall es, Forall P es -> P (EValues es).
  Hypothesis HCwv : forall p c, P p -> P c -> P (ECwv p c).
  Hypothesis HMvCall : forall p c, P p -> P c -> P (EMvCall p c).
  Hypothesis HMvLet : forall e ids body, P e -> P body -> P (EMvLet e ids body).
  Hypothesis HMvValues : forall es, Forall P es -> P (EMvValues es).

  Fixpoint expr_ind' (e : expr) : P e :=
    let fix all (es : list expr) : Forall P es :=
      match es with [] => Forall_nil _ | x :: r => Forall_cons _ (expr_ind' x) (all r) end in
    let fix allb (bs : list (list ident * expr)) : Forall (fun b => P (snd b)) bs :=
      match bs with [] => Forall_nil _ | b :: r => Forall_cons _ (expr_ind' (snd b)) (allb r) end in
    let fix allc (cs : list (formals * list expr)) : Forall (fun c => Forall P (snd c)) cs :=
      match cs with [] => Forall_nil _ | c :: r => Forall_cons _ (all (snd c)) (allc r) end in
    match e with
    | EConst v => HConst v
    | EUnbound => HUnbound
    | EVar x => HVar x
    | EDefine ids e => HDefine ids e (expr_ind' e)
    | ESet x e => HSet x e (expr_ind' e)
    | ELam fm body => HLam fm body (all body)
    | ECase cls => HCase cls (allc cls)
    | EBegin es => HBegin es (all es)
    | EIf a b c => HIf a b c (expr_ind' a) (expr_ind' b) (expr_ind' c)
    | EApp f args => HApp f args (expr_ind' f) (all args)
    | ELet bs body => HLet bs body (allb bs) (all body)
    | ELetrec bs body => HLetrec bs body (allb bs) (all body)
    | EValues es => HValues es (all es)
    | ECwv p c => HCwv p c (expr_ind' p) (expr_ind' c)
    | EMvCall p c => HMvCall p c (expr_ind' p) (expr_ind' c)
    | EMvLet e ids body => HMvLet e ids body (expr_ind' e) (expr_ind' body)
    | EMvValues es => HMvValues es (all es)
    end.
End Ind.

(** memq on a list of symbols, list.c:272-279. *)
Fixpoint memq (x : ident) (l : list ident) : option (list ident) :=
  match l with
  | [] => None
  | y :: r => if ident_eqb y x then Some l else memq x r
  end.
Definition memb (x : ident) (l : list ident) : bool := match memq x l with Some _ => true | None => false end.

Lemma memb_In x l : memb x l = true <-> In x l.
Proof.
  unfold memb. induction l as [|y r IH]; simpl; [split; [discriminate|tauto]|].
  destruct (ident_eqb_spec y x) as [->|D]; [tauto|].
  rewrite IH. intuition congruence.
Qed.

Lemma memb_false x l : memb x l = false <-> ~ In x l.
Proof. rewrite <- memb_In. destruct (memb x l); intuition congruence. Qed.

(** ** Analysis (jitanalyze.c).  The forms let-values, letrec-values, values and
    call-with-values do not occur any more when these functions run. *)

(** formals_to_ids, jitanalyze.c:12-22. *)
Definition formals_ids (fm : formals) : list ident :=
  req fm ++ match rest fm with Some x => [x] | None => [] end.

(** merge_free_vars, jitanalyze.c:24-33. *)
Fixpoint merge_loop (xs1 xs2 fvs : list ident) : list ident :=
  match xs1 with
  | [] => fvs
  | x :: r => merge_loop r xs2 (if memb x xs2 then fvs else x :: fvs)
  end.
Definition merge_fvs (xs1 xs2 : list ident) : list ident := merge_loop xs1 xs2 xs2.

(** remove_free_vars, jitanalyze.c:35-45. *)
Fixpoint remove_loop (ks fvs acc : list ident) : list ident :=
  match fvs with
  | [] => acc
  | x :: r => remove_loop ks r (if memb x ks then acc else x :: acc)
  end.
Definition remove_fvs (ks fvs : list ident) : list ident := remove_loop ks fvs [].

(** free_vars, jitanalyze.c:47-169.  The table from procedure expressions to
    their free variables (jitanalyze.c:61,77) is keyed by the identity of the
    expression and returns what this function returns for it, or the empty list
    when it is empty (jitcommon.c:46-49). *)
Fixpoint free_vars (e : expr) : list ident :=
  (* begin_free_vars, app_free_vars, jitanalyze.c:92-106 *)
  let fix seq (es : list expr) (fvs : list ident) : list ident :=
    match es with [] => fvs | x :: r => seq r (merge_fvs (free_vars x) fvs) end in
  match e with
  | EConst _ | EUnbound => []
  | EVar x => [x]
  | EDefine ids e => remove_fvs ids (free_vars e)
  | ESet x e => merge_fvs (free_vars e) (merge_fvs [x] [])
  | ELam fm body => remove_fvs (formals_ids fm) (seq body [])
  | ECase cls =>
      (fix go (cls : list (formals * list expr)) (fvs : list ident) : list ident :=
         match cls with
         | [] => fvs
         | (fm, body) :: r => go r (merge_fvs (remove_fvs (formals_ids fm) (seq body [])) fvs)
         end) cls []
  | EMvCall p c => seq [p; c] []
  | EMvLet e ids body => merge_fvs (remove_fvs (formals_ids ids) (free_vars body)) (free_vars e)
  | EMvValues es | EBegin es => seq es []
  | EIf a b c => seq [a; b; c] []
  | EApp f args => seq args (free_vars f)
  (* not reached *)
  | ELet _ _ | ELetrec _ _ | EValues _ | ECwv _ _ => []
  end.

Fixpoint free_vars_seq (es : list expr) (fvs : list ident) : list ident :=
  match es with [] => fvs | x :: r => free_vars_seq r (merge_fvs (free_vars x) fvs) end.
(** The free variables of one clause, jitanalyze.c:70-75. *)
Definition clause_fvs (c : clause) : list ident :=
  remove_fvs (formals_ids (fst c)) (free_vars_seq (snd c) []).
Fixpoint free_vars_clauses (cls : list clause) (fvs : list ident) : list ident :=
  match cls with
  | [] => fvs
  | c :: r => free_vars_clauses r (merge_fvs (clause_fvs c) fvs)
  end.

(** bound_vars, jitanalyze.c:179-296: the variables bound in the expression
    outside of nested procedures. *)
Fixpoint bound_vars (e : expr) : list ident :=
  let fix seq (es : list expr) : list ident :=
    match es with [] => [] | x :: r => bound_vars x ++ seq r end in
  match e with
  | EConst _ | EUnbound | EVar _ => []
  | EDefine ids e => ids ++ bound_vars e
  | ESet _ e => bound_vars e
  | ELam _ _ | ECase _ => []
  | EMvCall p c => bound_vars p ++ bound_vars c
  | EMvLet e ids body => bound_vars e ++ formals_ids ids ++ bound_vars body
  | EMvValues es | EBegin es => seq es
  | EIf a b c => bound_vars a ++ bound_vars b ++ bound_vars c
  | EApp f args => bound_vars f ++ seq args
  | ELet _ _ | ELetrec _ _ | EValues _ | ECwv _ _ => []
  end.
Fixpoint bound_vars_seq (es : list expr) : list ident :=
  match es with [] => [] | x :: r => bound_vars x ++ bound_vars_seq r end.

(** The table entries of a procedure: one list per clause
    (jitanalyze.c:186-193, 195-209; case-lambda counts the formals twice). *)
Definition lambda_bounds (fm : formals) (body : list expr) : list (list ident) :=
  [formals_ids fm ++ bound_vars_seq body].
Definition case_bounds (cls : list clause) : list (list ident) :=
  map (fun c => formals_ids (fst c) ++ formals_ids (fst c) ++ bound_vars_seq (snd c)) cls.
