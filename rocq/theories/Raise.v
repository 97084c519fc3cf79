(** Errors and their handlers: src/core/c/error.c, src/core/c/eval.c:461-466,
    584-586, 656-668, src/core/s/prelude.min:30-32, 2420-2427. *)
From Coq Require Import ZArith NArith Bool Ascii String List Arith Lia.
From Verif Require Import Base Heap HeapM Ast Code Sem Vm.
Import ListNotations.
Local Open Scope list_scope.

(** A thread: the machine and the two handlers (minim.h:816-817), #f if there is none. *)
Record thr : Type := Thr { x_m : mst; x_handler : val; x_chandler : val }.
Inductive xout : Type :=
| XNext (t : thr)
| XDone (r : rval) (t : thr)
| XShutdown                          (* the process prints a message and exits with status 1 *)
| XLoop                              (* errors about the handler of errors, for ever *)
| XUndef.

Section Raise.
  Variable prim : N -> list val -> heap -> option presult.
  (** The numbers of the C functions that access the handlers. *)
  Variables p_set p_get p_cset : N.
  (** What C code reports of an error: name (or NULL), message and objects. *)
  Variable describe : err -> option (list byte) * list byte * list val.

  (** do_error2, error.c:5-29, at state [m]: a list of the objects, strings of the name
      and the message; the current frame is reused for the call of the handler.  The
      stack has room (Stack.v).  longjmp (eval.c:463-467) leaves the temporary
      registers undefined. *)
  Definition report (e : err) (h : heap) : val * val * val * heap :=
    let '(name, msg, objs) := describe e in
    let '(l, h1) := new_list objs h in
    let '(n, h2) := match name with None => (VFalse, h1) | Some b => alloc (CStr b) h1 end in
    let '(s, h3) := alloc (CStr msg) h2 in
    (n, s, l, h3).
  Definition c_error (t : thr) (e : err) (m : mst) : xout :=
    match m_cc m, x_chandler t with
    | [], _ | _, VFalse => XShutdown
    | _ :: _, ch =>
        let '(n, s, l, h) := report e (d_heap (m_data m)) in
        let stk := push_all (m_stk m) (S (m_sfp m)) [n; s; l] in
        let m' := M (m_code m) (m_pc m) RNull RNull (RV ch) 3 (m_sfp m) stk (m_cc m) (m_env m) (m_vc m) (m_vals m) (with_heap (m_data m) h) in
        match do_application m' with
        | Next m1 => XNext (Thr m1 (x_handler t) (x_chandler t))
        | Fail _ _ => XLoop
        | _ => XUndef
        end
    end.
  (** do_raise, eval.c:656-668. *)
  Definition c_raise (t : thr) (m : mst) : xout :=
    match x_handler t with
    | VFalse => XShutdown
    | h =>
        match do_application (set_cp m (RV h) (m_ac m)) with
        | Next m1 => XNext (Thr m1 (x_handler t) (x_chandler t))
        | Fail e m1 => c_error t e m1
        | _ => XUndef
        end
    end.
  (** The C functions of error.c:67-87. *)
  Definition handler_prim (p : N) (t : thr) : option xout :=
    let m := x_m t in
    if N.eqb p p_set then
      Some (match frame_args m with
            | Some [h] => XNext (Thr (goto (set_r0 m (RV VVoid)) (S (m_pc m))) h (x_chandler t))
            | _ => XUndef
            end)
    else if N.eqb p p_get then
      Some (match frame_args m with
            | Some [] => XNext (Thr (goto (set_r0 m (RV (x_handler t))) (S (m_pc m))) (x_handler t) (x_chandler t))
            | _ => XUndef
            end)
    else if N.eqb p p_cset then
      Some (match frame_args m with
            | Some [h] => XNext (Thr (goto (set_r0 m (RV VVoid)) (S (m_pc m))) (x_handler t) h)
            | _ => XUndef
            end)
    else None.
  (** One step of the thread: the machine of Vm.v, with errors and handlers. *)
  Definition xstep (t : thr) : xout :=
    let m := x_m t in
    let plain :=
      match step prim m with
      | Next m1 => XNext (Thr m1 (x_handler t) (x_chandler t))
      | Done r m1 => XDone r (Thr m1 (x_handler t) (x_chandler t))
      | Fail e m1 => c_error t e m1
      | Raise m1 => c_raise t m1
      | Undef => XUndef
      end in
    match nth_error (instrs_of (m_code m)) (m_pc m) with
    | Some (Iccall p) => match handler_prim p t with Some o => o | None => plain end
    | _ => plain
    end.
  Inductive xreaches : thr -> thr -> Prop :=
  | XrRefl t : xreaches t t
  | XrStep t t1 t2 : xstep t = XNext t1 -> xreaches t1 t2 -> xreaches t t2.
End Raise.

(** The handler of C errors that the prelude installs, prelude.min:30-32. *)
Definition id_who : ident := Id "who". Definition id_msg : ident := Id "msg". Definition id_args : ident := Id "args".
Definition c_handler : clause :=
  (Formals [id_who; id_msg; id_args] None, [EApp (EVar (Id "apply")) [EVar (Id "error"); EVar id_who; EVar id_msg; EVar id_args]]).
