(** The procedure [eval]: src/core/c/jitprims.c:99-166 and the instructions that only it
    uses, src/core/c/eval.c:565-573, 581-583, with the top-level environment of the thread
    (tc_tenv; $current-environment, env.c:255-262).

    The machine is Vm.v's with one more register (%t1) and the top-level environment.
    Simplifications.  Environment objects are addresses; [e_tops] lists them, and the
    environment at position k has number k.  Vm.v has one table of globals: the variable x
    of the environment number k is kept there under a name made of k and x ([qual]); the
    environment number 0 uses the names themselves.  The closure of [eval] and those that
    it makes are kept in a table of their own ([e_clos]); nothing but a call looks at them.
    The code of [eval] has jumps to positions, found here by counting instructions. *)
From Coq Require Import ZArith NArith Bool Ascii String List Arith Lia.
From Verif Require Import Base Heap HeapM Ast Sem Reader Check Code Compile Opt Vm Pipe.
Import ListNotations.
Local Open Scope list_scope.
Local Open Scope nat_scope.

(** ** Instructions *)
Inductive einstr : Type :=
| EI (i : instr nat code)
| EGetTenv (dst : reg)              (* get-tenv, eval.c:568-570 *)
| ESetTenv (src : reg)              (* set-tenv, eval.c:571-573 *)
| ESetArg (i : nat) (src : reg)     (* set-arg, eval.c:565-567 *)
| EDoEval.                          (* do-eval, eval.c:581-583 *)
Inductive eitem : Type := ELab (l : nat) | EIns (i : einstr).

(** compile_eval, jitprims.c:99-166; labels 0 to 2 are Larity2, Larity_err and Lpop_tenv. *)
Definition eval_items : list eitem :=
  [EIns (EI (Imov Rres Rac)); EIns (EI (Ibranchne 1 0));
   EIns (EI (Iget_arg Rres 0)); EIns EDoEval; EIns (EI Iclear_frame); EIns (EI Iset_proc); EIns (EI Iapply);
   ELab 0; EIns (EI (Ibranchne 2 1)); EIns (EI (Iget_arg Rres 0)); EIns (EI (Iget_arg Rt0 1)); EIns (EGetTenv Rt1); EIns (ESetArg 1 Rt1);
   EIns (ESetTenv Rt0); EIns EDoEval; EIns (EI (Isave_cc 2)); EIns (EI Iset_proc); EIns (EI Iapply);
   ELab 2; EIns (EI (Iget_arg Rt0 1)); EIns (ESetTenv Rt0); EIns (EI Iret);
   ELab 1; EIns (EI Ido_arity_error)].
(** resolve_refs and write_code (jitcommon.c:165-221, jit.c:86-147; Code.v): a jump goes to
    the instruction after its label. *)
Fixpoint label_at (l k : nat) (its : list eitem) : option nat :=
  match its with
  | [] => None
  | ELab l' :: r => if Nat.eqb l' l then Some k else label_at l k r
  | EIns _ :: r => label_at l (S k) r
  end.
Fixpoint eresolve (all its : list eitem) : option (list einstr) :=
  match its with
  | [] => Some []
  | ELab _ :: r => eresolve all r
  | EIns (EI i) :: r =>
      match retarget (fun l => label_at l 0 all) (@Some code) i, eresolve all r with
      | Some i', Some q => Some (EI i' :: q)
      | _, _ => None
      end
  | EIns i :: r => option_map (cons i) (eresolve all r)
  end.
Definition eval_instrs : list einstr := match eresolve eval_items eval_items with Some l => l | None => [] end.
(** The code object of [eval]: no other code is without instructions.  jitprims.c:159. *)
Definition eval_code : code := Code [] (APair 1 (APair 2 ANull)) [].

(** ** Environments *)
Fixpoint nuls (k : nat) (s : string) : string := match k with O => s | S k => String "000"%char (nuls k s) end.
Fixpoint gs (n : nat) : string := match n with O => EmptyString | S n => String "g" (gs n) end.
(** The name under which the variable [x] of the environment number [k] is kept. *)
Definition qual (k : nat) (x : ident) : ident :=
  match k with
  | O => x
  | S _ => Id (nuls k (match x with Id s => String "i" s | Gen n => String "g" (gs n) end))
  end.
(** A name that begins with no null character. *)
Definition plain (x : ident) : Prop :=
  match x with Id (String c _) => c <> "000"%char | _ => True end.
(** The instructions on top-level variables, eval.c:268-332, in the environment [k]. *)
Definition in_env (k : nat) (i : instr nat code) : instr nat code :=
  match i with
  | Itl_lookup x => Itl_lookup (qual k x)
  | Itl_lookup_cell x => Itl_lookup_cell (qual k x)
  | Itl_bind_values n ids => Itl_bind_values n (map (qual k) ids)
  | Itl_rebind x => Itl_rebind (qual k x)
  | _ => i
  end.
Definition on_globals (i : instr nat code) : bool :=
  match i with Itl_lookup _ | Itl_lookup_cell _ | Itl_bind_values _ _ | Itl_rebind _ => true | _ => false end.

(** ** The thread *)
Record est : Type := E {
  e_m : mst;
  e_t1 : rval;
  e_tenv : val;
  e_clos : list (nat * mclo);
  e_tops : list nat }.
Inductive eoutcome : Type :=
| ENext (s : est)
| EDone (r : rval) (s : est)
| EFail (e : err) (s : est)
| ERaise (s : est)
| EUndef.

Fixpoint index_of (l : nat) (ls : list nat) : option nat :=
  match ls with
  | [] => None
  | a :: r => if Nat.eqb a l then Some 0 else option_map S (index_of l r)
  end.
(** The number of the environment that a value is. *)
Definition env_number (tops : list nat) (v : val) : option nat := match v with VPtr l => index_of l tops | _ => None end.

Definition with_m (s : est) (m : mst) : est := E m (e_t1 s) (e_tenv s) (e_clos s) (e_tops s).
Definition lift (s : est) (o : outcome) : eoutcome :=
  match o with
  | Next m => ENext (with_m s m)
  | Done r m => EDone r (with_m s m)
  | Fail e m => EFail e (with_m s m)
  | Raise m => ERaise (with_m s m)
  | Undef => EUndef
  end.
Definition map_m (f : mst -> mst) (o : outcome) : outcome :=
  match o with Next m => Next (f m) | Done r m => Done r (f m) | Fail e m => Fail e (f m) | Raise m => Raise (f m) | Undef => Undef end.
(** A call sees both tables of closures. *)
Definition all_clos (s : est) (m : mst) : mst := set_data m (with_clos (m_data m) (d_clos (m_data m) ++ e_clos s)).
Definition own_clos (cs : list (nat * mclo)) (m : mst) : mst := set_data m (with_clos (m_data m) cs).

(** load_reg, store_reg, eval.c:394-431. *)
Definition eload (s : est) (r : reg) : option rval := match r with Rt1 => Some (e_t1 s) | _ => load_reg (e_m s) r end.
Definition estore (s : est) (r : reg) (x : rval) : option est :=
  match r with
  | Rt1 => Some (E (e_m s) x (e_tenv s) (e_clos s) (e_tops s))
  | _ => option_map (with_m s) (store_reg (e_m s) r x)
  end.
Definition enext (s : est) : eoutcome := ENext (with_m s (goto (e_m s) (S (m_pc (e_m s))))).
Definition or_eundef (o : option est) : eoutcome := match o with Some s => enext s | None => EUndef end.

Section Step.
  Variable prim : N -> list val -> heap -> option presult.
  (** compile_expr, jit.c:153-188: the code of the expression that a value is, if it is one. *)
  Variable cmp : heap -> val -> option code.
  (** The primitives $current-environment and $current-environment-set!. *)
  Variables cur_env set_env : N.

  Definition eexec (i : einstr) (s : est) : eoutcome :=
    let m := e_m s in let d := m_data m in
    match i with
    | EI Iapply => lift s (map_m (own_clos (d_clos d)) (exec prim Iapply (all_clos s m)))
    | EI Ido_apply => lift s (map_m (own_clos (d_clos d)) (exec prim Ido_apply (all_clos s m)))
    | EI (Iccall p) =>
        if N.eqb p cur_env then enext (with_m s (set_r0 m (RV (e_tenv s))))        (* env.c:255-257 *)
        else if N.eqb p set_env then                                              (* env.c:259-262 *)
          match m_stk m (S (m_sfp m)) with
          | SVal v => enext (E (set_r0 m (RV VVoid)) (e_t1 s) v (e_clos s) (e_tops s))
          | _ => EUndef
          end
        else lift s (exec prim (Iccall p) m)
    | EI i =>
        if on_globals i then
          match env_number (e_tops s) (e_tenv s) with
          | Some k => lift s (exec prim (in_env k i) m)
          | None => EUndef                       (* top_env_find and the like of something else *)
          end
        else lift s (exec prim i m)
    | EGetTenv dst => or_eundef (estore s dst (RV (e_tenv s)))
    | ESetTenv src =>
        match eload s src with
        | Some (RV v) => enext (E m (e_t1 s) v (e_clos s) (e_tops s))
        | _ => EUndef
        end
    | ESetArg i _ =>                             (* eval.c:567 stores %res, whatever the operand *)
        match m_r0 m with
        | RV v => enext (with_m s (set_stack m (upd_stk (S (m_sfp m) + i) (SVal v) (m_stk m)) (m_ac m)))
        | _ => EUndef
        end
    | EDoEval =>
        match m_r0 m with
        | RV v =>
            match cmp (d_heap d) v with
            | Some c =>
                let l := List.length (d_heap d) in
                let d' := Data (d_heap d ++ [COther 0]) (d_clos d) (d_cells d) (d_glob d) (d_envs d ++ [[]]) in
                enext (E (set_r0 (set_data m d') (RV (VPtr l))) (e_t1 s) (e_tenv s) ((l, Clo c (List.length (d_envs d)) []) :: e_clos s) (e_tops s))
            | None => EUndef                     (* jitcompile.c:493-495: an error; a form not well formed: undefined *)
            end
        | _ => EUndef
        end
    end.

  Definition fetch (m : mst) : option einstr :=
    match instrs_of (m_code m) with
    | [] => nth_error eval_instrs (m_pc m)
    | is => option_map EI (nth_error is (m_pc m))
    end.
  Definition estep (s : est) : eoutcome :=
    match fetch (e_m s) with
    | None => EUndef
    | Some i => eexec i s
    end.

  Inductive ereaches : est -> est -> Prop :=
  | ErRefl s : ereaches s s
  | ErStep s s1 s2 : estep s = ENext s1 -> ereaches s1 s2 -> ereaches s s2.
  Lemma ereaches_trans s1 s2 s3 : ereaches s1 s2 -> ereaches s2 s3 -> ereaches s1 s3.
  Proof. induction 1; auto. intros. econstructor; eauto. Qed.
End Step.

(** compile_expr, jit.c:153-188: the expression that the value is (Pipe.v; [eval] does
    not check it) is optimised and compiled.  [g], [f]: depths that are enough.  [n]: the
    number of the next generated symbol. *)
Definition compile_value (g f n : nat) (h : heap) (v : val) : option code :=
  match hparse h g v with
  | POk e => match optimize f n e with Some (e', _) => compile_top e' | None => None end
  | _ => None
  end.
