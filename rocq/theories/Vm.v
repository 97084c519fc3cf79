(** The virtual machine: src/core/c/eval.c:68-705.

    The stack is one segment that is never exhausted (Stack.v models the
    segments); errors end the run (Raise.v models the handler); closure names are
    in Names.v. *)
From Coq Require Import ZArith NArith Bool Ascii String List Arith Lia.
From Verif Require Import Base Heap HeapM Ast Code Sem.
Import ListNotations.
Local Open Scope list_scope.

(** A variable cell: of a local variable, by number, or of a global one.  The
    table of globals holds one cell per name (Env.v). *)
Inductive cref : Type :=
| CL (l : nat)
| CG (x : ident).

(** Contents of registers: a value, the multiple-values marker, a cell, a raw
    number (the argument count), or nothing of use (NULL, never written). *)
Inductive rval : Type :=
| RV (v : val)
| RValues
| RCell (c : cref)
| RNum (n : nat)
| RNull.

(** Contents of a stack slot: a return address, NULL at the bottom. *)
Inductive slot : Type :=
| SNone
| SVal (v : val)
| SRa (ra : option (code * nat)).

(** Mclosure, minim.h: code, environment at creation, free-variable cells. *)
Record mclo : Type := Clo { c_code : code; c_env : nat; c_free : list (option cref) }.

(** Mcontinuation, frame.c:5-15 (the saved pc is not used when returning). *)
Record cont : Type := Cont { k_env : nat; k_sfp : nat; k_cp : rval; k_ac : nat }.

(** The data: object heap, closures by address, cells with the names of their
    variables, globals, run-time environments. *)
Record data : Type := Data {
  d_heap : heap;
  d_clos : list (nat * mclo);
  d_cells : list (ident * val);
  d_glob : globals;
  d_envs : list (list (option cref)) }.

(** The thread: code and position, registers, argument count, frame pointer,
    stack, continuation, current environment, multiple values. *)
Record mst : Type := M {
  m_code : code; m_pc : nat;
  m_r0 : rval; m_t0 : rval; m_cp : rval; m_ac : nat;
  m_sfp : nat; m_stk : nat -> slot; m_cc : list cont;
  m_env : nat; m_vc : nat; m_vals : list val;
  m_data : data }.

Inductive outcome : Type :=
| Next (m : mst)
| Done (r : rval) (m : mst)          (* eval_istream returns *)
| Fail (e : err) (m : mst)           (* the C code signals an error *)
| Raise (m : mst)                    (* do-raise *)
| Undef.                             (* undefined behaviour or broken code *)

Definition upd_stk (i : nat) (x : slot) (stk : nat -> slot) : nat -> slot :=
  fun j => if Nat.eqb j i then x else stk j.

Fixpoint clo_ref (l : nat) (cs : list (nat * mclo)) : option mclo :=
  match cs with
  | [] => None
  | (k, c) :: r => if Nat.eqb k l then Some c else clo_ref l r
  end.
Definition clo_at (v : rval) (d : data) : option mclo :=
  match v with RV (VPtr l) => clo_ref l (d_clos d) | _ => None end.
Fixpoint clo_upd (l : nat) (c : mclo) (cs : list (nat * mclo)) : list (nat * mclo) :=
  match cs with
  | [] => []
  | (k, c') :: r => if Nat.eqb k l then (k, c) :: r else (k, c') :: clo_upd l c r
  end.

Definition with_cells (d : data) cells := Data (d_heap d) (d_clos d) cells (d_glob d) (d_envs d).
Definition with_glob (d : data) g := Data (d_heap d) (d_clos d) (d_cells d) g (d_envs d).
Definition with_envs (d : data) envs := Data (d_heap d) (d_clos d) (d_cells d) (d_glob d) envs.
Definition with_heap (d : data) h := Data h (d_clos d) (d_cells d) (d_glob d) (d_envs d).
Definition with_clos (d : data) cs := Data (d_heap d) cs (d_cells d) (d_glob d) (d_envs d).

(** minim_env_ref of the current environment. *)
Definition env_slot (d : data) (e i : nat) : option cref :=
  match nth_error (d_envs d) e with
  | Some sl => match nth_error sl i with Some (Some c) => Some c | _ => None end
  | None => None
  end.
(** Writing a slot; [None] outside of the environment. *)
Definition set_slot (d : data) (e i : nat) (c : option cref) : option data :=
  match nth_error (d_envs d) e with
  | Some sl => if i <? List.length sl then Some (with_envs d (set_nth e (set_nth i c sl) (d_envs d))) else None
  | None => None
  end.

(** The name and the value in a cell. *)
Definition cell_val (d : data) (c : cref) : option (ident * val) :=
  match c with
  | CL l => nth_error (d_cells d) l
  | CG x => match glob_ref x (d_glob d) with Some v => Some (x, v) | None => None end
  end.
Definition cell_set (d : data) (c : cref) (v : val) : option data :=
  match c with
  | CL l => match nth_error (d_cells d) l with
            | Some (x, _) => Some (with_cells d (set_nth l (x, v) (d_cells d)))
            | None => None
            end
  | CG x => match glob_ref x (d_glob d) with
            | Some _ => Some (with_glob d (glob_set x v (d_glob d)))
            | None => None
            end
  end.

(** A list read from the heap (minim_listp, list.c:16-24, and the loop of
    do_apply): [Some None] if it is improper, [None] if it is cyclic (the loop
    does not end). *)
Fixpoint read_list (fuel : nat) (h : heap) (v : val) : option (option (list val)) :=
  match v with
  | VNull => Some (Some [])
  | _ => match pair_at h v with
         | None => Some None
         | Some (a, d) =>
             match fuel with
             | O => None
             | S n => match read_list n h d with
                      | Some (Some xs) => Some (Some (a :: xs))
                      | o => o
                      end
             end
         end
  end.

(** The arguments of the current frame. *)
Fixpoint args_from (stk : nat -> slot) (i n : nat) : option (list val) :=
  match n with
  | O => Some []
  | S n' => match stk i, args_from stk (S i) n' with
            | SVal v, Some vs => Some (v :: vs)
            | _, _ => None
            end
  end.
Definition frame_args (m : mst) : option (list val) := args_from (m_stk m) (S (m_sfp m)) (m_ac m).

Fixpoint push_all (stk : nat -> slot) (i : nat) (vs : list val) : nat -> slot :=
  match vs with
  | [] => stk
  | v :: r => push_all (upd_stk i (SVal v) stk) (S i) r
  end.

(** env_bind_values, eval.c:342-369. *)
Fixpoint bind_all (d : data) (e i : nat) (ids : list ident) (vs : list val) : option data :=
  match ids, vs with
  | [], [] => Some d
  | x :: xr, v :: vr =>
      match set_slot (with_cells d (d_cells d ++ [(x, v)])) e i (Some (CL (List.length (d_cells d)))) with
      | Some d' => bind_all d' e (S i) xr vr
      | None => None
      end
  | _, _ => None
  end.
(** tl_env_bind_values, eval.c:268-305. *)
Fixpoint tl_bind_all (d : data) (ids : list ident) (vs : list val) : option data :=
  match ids, vs with
  | [], [] => Some d
  | x :: xr, v :: vr => tl_bind_all (with_glob d (glob_set x v (d_glob d))) xr vr
  | _, _ => None
  end.

(** env_load_closure, eval.c:388-392. *)
Fixpoint load_free (d : data) (e i : nat) (free : list (option cref)) : option data :=
  match free with
  | [] => Some d
  | c :: r => match set_slot d e i c with
              | Some d' => load_free d' e (S i) r
              | None => None
              end
  end.

(** The values in the result register: one value or those in the thread.
    [None]: not a value. *)
Definition result_vals (m : mst) : option (list val) :=
  match m_r0 m with
  | RV v => Some [v]
  | RValues => if List.length (m_vals m) =? m_vc m then Some (m_vals m) else None
  | _ => None
  end.

Section Step.
  Variable prim : N -> list val -> heap -> option presult.

  Definition goto (m : mst) (pc : nat) : mst :=
    M (m_code m) pc (m_r0 m) (m_t0 m) (m_cp m) (m_ac m) (m_sfp m) (m_stk m) (m_cc m) (m_env m) (m_vc m) (m_vals m) (m_data m).
  Definition set_r0 (m : mst) (r : rval) : mst :=
    M (m_code m) (m_pc m) r (m_t0 m) (m_cp m) (m_ac m) (m_sfp m) (m_stk m) (m_cc m) (m_env m) (m_vc m) (m_vals m) (m_data m).
  Definition set_data (m : mst) (d : data) : mst :=
    M (m_code m) (m_pc m) (m_r0 m) (m_t0 m) (m_cp m) (m_ac m) (m_sfp m) (m_stk m) (m_cc m) (m_env m) (m_vc m) (m_vals m) d.
  Definition set_cp (m : mst) (r : rval) (ac : nat) : mst :=
    M (m_code m) (m_pc m) (m_r0 m) (m_t0 m) r ac (m_sfp m) (m_stk m) (m_cc m) (m_env m) (m_vc m) (m_vals m) (m_data m).
  Definition set_stack (m : mst) (stk : nat -> slot) (ac : nat) : mst :=
    M (m_code m) (m_pc m) (m_r0 m) (m_t0 m) (m_cp m) ac (m_sfp m) stk (m_cc m) (m_env m) (m_vc m) (m_vals m) (m_data m).

  (** load_reg, store_reg, eval.c:394-431 (%t1 is only used by eval). *)
  Definition load_reg (m : mst) (r : reg) : option rval :=
    match r with
    | Rres => Some (m_r0 m)
    | Rt0 => Some (m_t0 m)
    | Rcp => Some (m_cp m)
    | Rac => Some (RNum (m_ac m))
    | Rt1 => None
    end.
  Definition store_reg (m : mst) (r : reg) (x : rval) : option mst :=
    match r with
    | Rres => Some (set_r0 m x)
    | Rt0 => Some (M (m_code m) (m_pc m) (m_r0 m) x (m_cp m) (m_ac m) (m_sfp m) (m_stk m) (m_cc m) (m_env m) (m_vc m) (m_vals m) (m_data m))
    | Rcp => Some (set_cp m x (m_ac m))
    | Rac => match x with RNum n => Some (set_cp m (m_cp m) n) | _ => None end
    | Rt1 => None
    end.

  Definition next (m : mst) : outcome := Next (goto m (S (m_pc m))).
  Definition or_undef (o : option mst) : outcome := match o with Some m => next m | None => Undef end.

  (** The label [application], eval.c:520-525, 646-653. *)
  Definition do_application (m : mst) : outcome :=
    match m_cp m with
    | RV v =>
        match clo_at (RV v) (m_data m) with
        | Some c => Next (M (c_code c) 0 (m_r0 m) (m_t0 m) (m_cp m) (m_ac m) (m_sfp m) (m_stk m) (m_cc m) (c_env c)
                            (m_vc m) (m_vals m) (m_data m))
        | None => Fail (ErrNotProc v) m
        end
    | _ => Undef
    end.

  (** The result register when it must hold one value (force_single_value,
      eval.c:262-266). *)
  Definition single (m : mst) (k : val -> outcome) : outcome :=
    match m_r0 m with
    | RV v => k v
    | RValues => Fail (ErrResults 1 (m_vc m)) m
    | _ => Undef
    end.

  (** One instruction, eval.c:475-644. *)
  Definition exec (i : instr nat code) (m : mst) : outcome :=
    let d := m_data m in
        match i with
        | Iliteral v => next (set_r0 m (RV v))
        | Ilookup i =>                                   (* eval.c:371-382 *)
            match env_slot d (m_env m) i with
            | None => Undef
            | Some c => match cell_val d c with
                        | None => Undef
                        | Some (x, VUnbound) => Fail (ErrInit x) m
                        | Some (_, v) => next (set_r0 m (RV v))
                        end
            end
        | Ilookup_cell i =>
            match env_slot d (m_env m) i with
            | None => Undef
            | Some c => next (set_r0 m (RCell c))
            end
        | Itl_lookup x =>                                (* eval.c:307-318 *)
            match glob_ref x (d_glob d) with
            | None | Some VUnbound => Fail (ErrInit x) m
            | Some v => next (set_r0 m (RV v))
            end
        | Itl_lookup_cell x =>                           (* eval.c:320-327 *)
            let d' := match glob_ref x (d_glob d) with
                      | None => with_glob d (glob_set x VUnbound (d_glob d))
                      | Some _ => d
                      end in
            next (set_r0 (set_data m d') (RCell (CG x)))
        | Iset_proc => single m (fun v => next (set_cp m (RV v) (m_ac m)))
        | Ipush =>
            single m (fun v => next (set_stack m (upd_stk (S (m_sfp m) + m_ac m) (SVal v) (m_stk m)) (S (m_ac m))))
        | Imov dst src =>
            match load_reg m src with
            | None => Undef
            | Some x => or_undef (store_reg m dst x)
            end
        | Iclosure_set dst i src =>
            match load_reg m dst, load_reg m src with
            | Some (RV (VPtr l)), Some (RCell c) =>
                match clo_ref l (d_clos d) with
                | Some k => if i <? List.length (c_free k)
                            then next (set_data m (with_clos d (clo_upd l (Clo (c_code k) (c_env k) (set_nth i (Some c) (c_free k))) (d_clos d))))
                            else Undef
                | None => Undef
                end
            | _, _ => Undef
            end
        | Iclosure_bind =>
            match clo_at (m_cp m) d with
            | Some k => match load_free d (m_env m) 0 (c_free k) with
                        | Some d' => next (set_data m d')
                        | None => Undef
                        end
            | None => Undef
            end
        | Iapply => do_application m
        | Iret =>                                        (* eval.c:671-701 *)
            if m_sfp m =? 0 then Done (m_r0 m) m
            else match m_stk m (m_sfp m), m_cc m with
                 | SRa (Some (c, pc)), k :: cc =>
                     Next (M c pc (m_r0 m) (m_t0 m) (k_cp k) (k_ac k) (k_sfp k) (m_stk m) cc (k_env k) (m_vc m) (m_vals m) d)
                 | _, _ => Undef
                 end
        | Iccall p =>                                    (* eval.c:145-165; with 7 or more arguments an error
                                                           that no primitive of the system reaches *)
            if 6 <? m_ac m then Undef
            else match frame_args m with
                 | None => Undef
                 | Some vs => match prim p vs (d_heap d) with
                              | None => Undef
                              | Some (PrimVal v h) => next (set_r0 (set_data m (with_heap d h)) (RV v))
                              | Some (PrimErr e h) => Fail (ErrPrim e) (set_data m (with_heap d h))
                              end
                 end
        | Ibind i x =>
            match m_r0 m with
            | RV v => match set_slot (with_cells d (d_cells d ++ [(x, v)])) (m_env m) i (Some (CL (List.length (d_cells d)))) with
                      | Some d' => next (set_r0 (set_data m d') (RV VVoid))
                      | None => Undef
                      end
            | _ => Undef
            end
        | Ibind_values i n ids =>
            match result_vals m with
            | None => Undef
            | Some vs => if List.length vs =? n
                         then match bind_all d (m_env m) i ids vs with
                              | Some d' => next (set_r0 (set_data m d') (RV VVoid))
                              | None => Undef
                              end
                         else Fail (ErrResults n (List.length vs)) m
            end
        | Itl_bind_values n ids =>
            match result_vals m with
            | None => Undef
            | Some vs => if List.length vs =? n
                         then match tl_bind_all d ids vs with
                              | Some d' => next (set_r0 (set_data m d') (RV VVoid))
                              | None => Undef
                              end
                         else Fail (ErrResults n (List.length vs)) m
            end
        | Irebind i =>                                   (* eval.c:338-340 *)
            match m_r0 m, env_slot d (m_env m) i with
            | RV v, Some c => match cell_set d c v with
                              | Some d' => next (set_r0 (set_data m d') (RV VVoid))
                              | None => Undef
                              end
            | _, _ => Undef
            end
        | Itl_rebind x =>                                (* eval.c:329-332: the result is kept *)
            match m_r0 m with
            | RV v => match glob_ref x (d_glob d) with
                      | Some _ => next (set_data m (with_glob d (glob_set x v (d_glob d))))
                      | None => Undef
                      end
            | _ => Undef
            end
        | Ipush_env n =>
            let d' := with_envs d (d_envs d ++ [repeat None n]) in
            next (M (m_code m) (m_pc m) (m_r0 m) (m_t0 m) (m_cp m) (m_ac m) (m_sfp m) (m_stk m) (m_cc m)
                    (List.length (d_envs d)) (m_vc m) (m_vals m) d')
        | Isave_cc t =>                                  (* push_frame, eval.c:129-143 *)
            let sfp' := m_sfp m + (1 + m_ac m) in
            next (M (m_code m) (m_pc m) (m_r0 m) (m_t0 m) (RV VVoid) 0 sfp'
                    (upd_stk sfp' (SRa (Some (m_code m, t))) (m_stk m))
                    (Cont (m_env m) (m_sfp m) (m_cp m) (m_ac m) :: m_cc m) (m_env m) (m_vc m) (m_vals m) d)
        | Iget_arg dst i =>
            match m_stk m (S (m_sfp m) + i) with
            | SVal v => or_undef (store_reg m dst (RV v))
            | _ => Undef
            end
        | Ido_apply =>                                   (* eval.c:195-231 *)
            match frame_args m with
            | Some (g :: a :: r) =>
                let m' := set_cp m (RV g) (m_ac m) in
                match clo_at (RV g) d with
                | None => Fail (ErrApply g) m'
                | Some _ =>
                    let l := last (a :: r) VNull in
                    match read_list (List.length (d_heap d)) (d_heap d) l with
                    | None => Undef
                    | Some None => Fail (ErrApply l) m'
                    | Some (Some xs) =>
                        let mid := removelast (a :: r) in
                        let stk1 := push_all (m_stk m) (S (m_sfp m)) mid in
                        let stk2 := push_all stk1 (S (m_sfp m) + List.length mid) xs in
                        do_application (set_stack m' stk2 (List.length mid + List.length xs))
                    end
                end
            | _ => Undef
            end
        | Ido_arity_error =>                             (* eval.c:27-62 *)
            match m_cp m with
            | RV v => Fail (ErrArity v (m_ac m)) m
            | _ => Undef
            end
        | Ido_raise => Raise m                           (* eval.c:584-586, 656-668: see Raise.v *)
        | Ido_rest i =>                                  (* eval.c:167-193 *)
            if m_ac m <? i then Undef
            else match args_from (m_stk m) (S (m_sfp m) + i) (m_ac m - i) with
                 | None => Undef
                 | Some vs => let '(l, h) := new_list vs (d_heap d) in next (set_r0 (set_data m (with_heap d h)) (RV l))
                 end
        | Ido_values =>                                  (* eval.c:233-246 *)
            match frame_args m with
            | None => Undef
            | Some vs =>
                let r := match vs with [v] => RV v | _ => RValues end in
                let vals := match vs with [v] => [] | _ => vs end in
                next (M (m_code m) (m_pc m) r (m_t0 m) (m_cp m) (m_ac m) (m_sfp m) (m_stk m) (m_cc m) (m_env m) (m_ac m) vals d)
            end
        | Ido_with_values =>                             (* eval.c:248-257 *)
            match result_vals m with
            | None => Undef
            | Some vs => next (set_stack m (push_all (m_stk m) (S (m_sfp m) + m_ac m) vs) (m_ac m + List.length vs))
            end
        | Iclear_frame => next (set_cp m RNull 0)
        | Ibrancha t => Next (goto m t)
        | Ibranchf t =>
            match m_r0 m with
            | RV VFalse => Next (goto m t)
            | _ => next m
            end
        | Ibranchgt n t =>
            match m_r0 m with RNum k => if n <? k then Next (goto m t) else next m | _ => Undef end
        | Ibranchlt n t =>
            match m_r0 m with RNum k => if k <? n then Next (goto m t) else next m | _ => Undef end
        | Ibranchne n t =>
            match m_r0 m with RNum k => if k =? n then next m else Next (goto m t) | _ => Undef end
        | Imake_closure c n =>
            let l := List.length (d_heap d) in
            next (set_r0 (set_data m (Data (d_heap d ++ [COther 0]) ((l, Clo c (m_env m) (repeat None n)) :: d_clos d)
                                           (d_cells d) (d_glob d) (d_envs d))) (RV (VPtr l)))
        | Icheck_stack _ => next m                       (* eval.c:114-116 *)
        end.

  (** The loop of eval_istream, eval.c:468-474. *)
  Definition step (m : mst) : outcome :=
    match nth_error (instrs_of (m_code m)) (m_pc m) with
    | None => Undef
    | Some i => exec i m
    end.

  (** [reaches m m']: the machine gets from [m] to [m'] in any number of steps. *)
  Inductive reaches : mst -> mst -> Prop :=
  | ReRefl m : reaches m m
  | ReStep m m1 m2 : step m = Next m1 -> reaches m1 m2 -> reaches m m2.

  (** The run from [m] ends with outcome [o]. *)
  Definition ends (m : mst) (o : outcome) : Prop :=
    exists m', reaches m m' /\ step m' = o /\ match o with Next _ => False | _ => True end.

  Lemma reaches_trans m1 m2 m3 : reaches m1 m2 -> reaches m2 m3 -> reaches m1 m3.
  Proof. induction 1; auto. intros. econstructor; eauto. Qed.

  Lemma reaches_one m m' : step m = Next m' -> reaches m m'.
  Proof. intros. econstructor; eauto. constructor. Qed.
End Step.

(** eval_expr, eval.c:707-710, 437-466: a fresh frame at the bottom of the
    stack.  [d] is the data of the system before the evaluation. *)
Definition start (c : code) (stk : nat -> slot) (env : nat) (vc : nat) (vals : list val) (d : data) : mst :=
  M c 0 RNull RNull (RV VVoid) 0 0 (upd_stk 0 (SRa None) stk) [] env vc vals d.
