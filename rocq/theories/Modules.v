(** Model of src/library/module.min: loading and importing modules.

    The file system, the expander (expand/module) and the evaluator of module
    bodies are parameters: [files] gives the forms a path reads as, [expandm]
    and [evalm] are any functions on an arbitrary state [W] of the program (its
    heap, its output), so every theorem holds for all of them.  They cannot
    touch the module table: $module-table is not exported (module.min:6).

    Simplifications.  A symbol is its name.  An environment is a finite map from
    names to values (what C10 and C11 prove of top-level environments, including
    that copies are independent); $module-table and $module-envs are association
    lists (C05 proves the hash tables to be maps).  Files do not change while
    the program runs.  Printing (print-handler, writeln of results) is part of
    the effect of [evalm].  The log of events is a ghost: nothing reads it. *)
From Coq Require Import Ascii String List Arith Bool.
From Verif Require Import Path.
Import ListNotations.
Local Open Scope list_scope.

Definition str_eq_dec : forall a b : str, {a = b} + {a <> b} := list_eq_dec ascii_dec.

(** How a computation ends: a value, a raised error, or never ([Hang] is also
    the answer of a model function that runs out of fuel). *)
Inductive res (A : Type) : Type :=
| Ok : A -> res A
| Err : res A
| Hang : res A.
Arguments Ok {A}. Arguments Err {A}. Arguments Hang {A}.

(** Elements of [(import ...)] and [(export ...)] forms: a string, a symbol,
    [(all "path")]; anything else is bad syntax, module.min:60-75, 81-106.  (For
    a non-string import build-path raises before the syntax check is reached;
    both are errors.) *)
Inductive imp : Type := IStr (s : str) | IBad.
Inductive xp : Type := XName (n : str) | XAll (s : str) | XBad.

(** assoc on a list of pairs, as a lookup *)
Fixpoint assocl {B} (n : str) (l : list (str * B)) : option B :=
  match l with
  | [] => None
  | (m, b) :: r => if str_eq_dec n m then Some b else assocl n r
  end.

(** merge-xforms, expander.min:74-78: entries of the second list whose name is
    not bound yet are consed in front of the first. *)
Fixpoint merge_xforms {B} (xs new : list (str * B)) : list (str * B) :=
  match new with
  | [] => xs
  | (n, b) :: r => match assocl n xs with
                   | Some _ => merge_xforms xs r
                   | None => merge_xforms ((n, b) :: xs) r
                   end
  end.

Section Modules.
Variables X V E W : Type.      (* transformers, values, expressions, program states *)

(** A top-level form as the import phase sees it, module.min:53-108; the flag
    says that the form is a proper list. *)
Inductive form : Type :=
| FImport (l : list imp) (proper : bool)
| FExport (l : list xp) (proper : bool)
| FExpr (e : E).

Definition env := str -> option V.
Definition xforms := list (str * X).
Definition vals := list (str * V).
Definition entry := (xforms * vals)%type.      (* a value of $module-table *)

Inductive event : Type :=
| Expanding (p : str) (es : list E) (xs : xforms) (stx : env)
                                               (* the body of [p] is given to the expander *)
| Started (p : str) (e : env)                  (* the body of [p] starts to run in [e] *)
| Done (p : str) (t : entry) (e : env).        (* [p] is recorded; [e]: its environment *)

Record state : Type := mkst {
  tbl : list (str * entry);                    (* $module-table, module.min:16 *)
  envs : list (str * (env * env));             (* $module-envs, module.min:17 *)
  world : W;
  log : list event }.                          (* oldest first; ghost *)

Variable files : str -> res (list form).
(** expand/module: path, expressions, transformers, syntax environment, scope *)
Variable expandm : str -> list E -> xforms -> env -> list str -> W ->
                   res (list E * xforms * env * W).
(** $eval-exprs, module.min:142-158: the environment after the body has run *)
Variable evalm : list E -> env -> W -> res (env * W).
Variable base : env.                           (* $base-env *)
Variable stxbase : env -> env.                 (* $base-stx-env, expander.min:272-290 *)
Variable cwd : str.                            (* (current-directory) *)

(** environment-set! *)
Definition env_set (e : env) (n : str) (v : V) : env :=
  fun m => if str_eq_dec m n then Some v else e m.
(** $eval-environment, module.min:130-139: the imports are stored in list order *)
Fixpoint eval_environment (e : env) (l : vals) : env :=
  match l with
  | [] => e
  | (n, v) :: r => eval_environment (env_set e n v) r
  end.

(** Path resolution, module.min:219-222, 229-232, 247-250 *)
Definition resolve (name : str) : option str :=
  if is_absolute name then Some name else build_path cwd [name].

(** The local variables of $load-module that the import phase assigns,
    module.min:26-30; [m_eval] is the list [evalable] of $import. *)
Record minfo : Type := mkmi {
  m_scope : list str; m_exported : list str; m_imported : vals;
  m_xforms : xforms; m_modules : list str; m_eval : list E }.
Definition minfo0 : minfo := mkmi [] [] [] [] [] [].

Section Body.
Variable load : str -> state -> res unit * state.      (* $load-or-import *)
Variable dir : option str.                             (* new-cwd *)

(** (build-path new-cwd s): raises when new-cwd is #f *)
Definition sub_path (s : str) : option str :=
  match dir with Some d => build_path d [s] | None => None end.

(** loop2 over the elements of an import form, module.min:56-75 *)
Fixpoint imports_loop (l : list imp) (proper : bool) (m : minfo) (st : state) : res minfo * state :=
  match l with
  | [] => (if proper then Ok m else Err, st)
  | IBad :: _ => (Err, st)
  | IStr s :: r =>
      match sub_path s with
      | None => (Err, st)
      | Some path =>
          match load path st with
          | (Ok _, st1) =>
              match assocl path (tbl st1) with
              | None => (Err, st1)
              | Some (fx, fv) =>
                  imports_loop r proper
                    (mkmi (m_scope m ++ map fst fv) (m_exported m) (fv ++ m_imported m)
                          (merge_xforms (m_xforms m) fx) (path :: m_modules m) (m_eval m)) st1
              end
          | (Err, st1) => (Err, st1)
          | (Hang, st1) => (Hang, st1)
          end
      end
  end.

(** loop2 over the elements of an export form, module.min:77-106 *)
Fixpoint exports_loop (l : list xp) (proper : bool) (m : minfo) (st : state) : res minfo :=
  match l with
  | [] => if proper then Ok m else Err
  | XBad :: _ => Err
  | XName n :: r =>
      exports_loop r proper (mkmi (m_scope m) (n :: m_exported m) (m_imported m) (m_xforms m) (m_modules m) (m_eval m)) st
  | XAll s :: r =>
      match sub_path s with
      | None => Err
      | Some path =>
          if in_dec str_eq_dec path (m_modules m) then
            match assocl path (tbl st) with
            | None => Err
            | Some (fx, fv) =>
                exports_loop r proper
                  (mkmi (m_scope m) (map fst fx ++ map fst fv ++ m_exported m) (m_imported m)
                        (m_xforms m) (m_modules m) (m_eval m)) st
            end
          else Err
      end
  end.

(** $import, module.min:47-108 *)
Fixpoint import_phase (fs : list form) (m : minfo) (st : state) : res minfo * state :=
  match fs with
  | [] => (Ok m, st)
  | FImport l proper :: r =>
      match imports_loop l proper m st with
      | (Ok m1, st1) => import_phase r m1 st1
      | (Err, st1) => (Err, st1)
      | (Hang, st1) => (Hang, st1)
      end
  | FExport l proper :: r =>
      match exports_loop l proper m st with
      | Ok m1 => import_phase r m1 st
      | Err => (Err, st)
      | Hang => (Hang, st)
      end
  | FExpr e :: r =>
      import_phase r (mkmi (m_scope m) (m_exported m) (m_imported m) (m_xforms m) (m_modules m) (m_eval m ++ [e])) st
  end.
End Body.

(** What $load-module returns (the scope is left out), module.min:126 *)
Record loaded : Type := mkld {
  l_exprs : list E; l_xforms : xforms; l_imports : vals; l_exports : list str; l_stxenv : env }.

(** $load-module, module.min:21-126 *)
Definition load_module (load : str -> state -> res unit * state) (path : str) (st : state) : res loaded * state :=
  match split_path path with
  | None => (Err, st)
  | Some (dir, _) =>
      match files path with
      | Err => (Err, st)
      | Hang => (Hang, st)
      | Ok fs =>
          match import_phase load dir fs minfo0 st with
          | (Err, st1) => (Err, st1)
          | (Hang, st1) => (Hang, st1)
          | (Ok m, st1) =>
              let stx := stxbase (eval_environment base (m_imported m)) in
              let st2 := mkst (tbl st1) (envs st1) (world st1)
                              (log st1 ++ [Expanding path (m_eval m) (m_xforms m) stx]) in
              match expandm path (m_eval m) (m_xforms m) stx (m_scope m) (world st2) with
              | Err => (Err, st2)
              | Hang => (Hang, st2)
              | Ok (es, xs, stx', w) =>
                  (Ok (mkld es xs (m_imported m) (m_exported m) stx'), mkst (tbl st2) (envs st2) w (log st2))
              end
          end
      end
  end.

(** The loop over the exports, module.min:170-186: a transformer first, else a
    variable of the module's environment, else an error. *)
Fixpoint export_loop (exports : list str) (xs : xforms) (e : env) (acc : entry) : res entry :=
  match exports with
  | [] => Ok acc
  | n :: r =>
      match assocl n xs with
      | Some x => export_loop r xs e ((n, x) :: fst acc, snd acc)
      | None => match e n with
                | Some v => export_loop r xs e (fst acc, (n, v) :: snd acc)
                | None => Err
                end
      end
  end.

(** $load-or-import, module.min:217-225, given $load-or-import-no-check *)
Definition load_checked (nc : str -> state -> res unit * state) (name : str) (st : state) : res unit * state :=
  match resolve name with
  | None => (Err, st)
  | Some path => match assocl path (tbl st) with
                 | Some _ => (Ok tt, st)
                 | None => nc path st
                 end
  end.

(** $load-or-import-no-check, module.min:160-195.  The fuel bounds the depth of
    nested imports. *)
Fixpoint no_check (fuel : nat) (path : str) (st : state) : res unit * state :=
  match fuel with
  | O => (Hang, st)
  | S f =>
      match load_module (load_checked (no_check f)) path st with
      | (Err, st1) => (Err, st1)
      | (Hang, st1) => (Hang, st1)
      | (Ok l, st1) =>
          let e0 := eval_environment base (l_imports l) in
          let st2 := mkst (tbl st1) (envs st1) (world st1) (log st1 ++ [Started path e0]) in
          match evalm (l_exprs l) e0 (world st2) with
          | Err => (Err, st2)
          | Hang => (Hang, st2)
          | Ok (e1, w) =>
              match export_loop (l_exports l) (l_xforms l) e1 ([], []) with
              | Err => (Err, mkst (tbl st2) (envs st2) w (log st2))
              | Hang => (Hang, mkst (tbl st2) (envs st2) w (log st2))
              | Ok t => (Ok tt, mkst ((path, t) :: tbl st2) ((path, (l_stxenv l, e1)) :: envs st2) w
                                     (log st2 ++ [Done path t e1]))
              end
          end
      end
  end.

(** import and load (up to entering the REPL), module.min:217-243 *)
Definition load_or_import (fuel : nat) (name : str) (st : state) : res unit * state :=
  load_checked (no_check fuel) name st.

(** The two environments enter! gives to $repl: the one in which input is
    evaluated and the one in which transformers run, module.min:245-262.  The
    table holds (expand env . eval env) and enter! passes them in that order to
    parameters (env stx-env). *)
Definition enter_envs (name : str) (st : state) : option (env * env) :=
  match resolve name with
  | None => None
  | Some path => match assocl path (envs st) with
                 | Some (stx, e) => Some (stx, e)
                 | None => None
                 end
  end.

Definition state0 (w : W) : state := mkst [] [] w [].
End Modules.

Arguments FImport {E}. Arguments FExport {E}. Arguments FExpr {E}.
Arguments Expanding {X V E}. Arguments Started {X V E}. Arguments Done {X V E}.
Arguments tbl {X V E W}. Arguments envs {X V E W}. Arguments world {X V E W}. Arguments log {X V E W}.
Arguments mkst {X V E W}.
