(** C54: the module system.

    [reachable] states are those after any history of imports of any names, each
    of which succeeded or raised an error.  The log says, oldest first, when the
    body of a module was handed to the expander ([Expanding]), when it started to
    run and in which environment ([Started]), and when it was recorded with its
    exports ([Done]). *)
From Coq Require Import Ascii String List Arith Bool Lia Relations.
From Verif Require Import Path PathThm Modules ModulesProofs.
Import ListNotations.
Local Open Scope list_scope.

Section Thm.
Variables X V E W : Type.
Variable files : str -> res (list (form E)).
Variable expandm : str -> list E -> xforms X -> env V -> list str -> W -> res (list E * xforms X * env V * W).
Variable evalm : list E -> env V -> W -> res (env V * W).
Variable base : env V.
Variable stxbase : env V -> env V.
Variable cwd : str.
Hypothesis CWD : is_absolute cwd = true.      (* (current-directory) is an absolute path *)
Notation reachable := (reachable X V E W files expandm evalm base stxbase cwd).
Notation load_or_import := (load_or_import X V E W files expandm evalm base stxbase cwd).
Notation imports := (imports E files).
Notation reaches := (reaches E files).
Notation import_list := (import_list E files).
Notation body_of := (body_of E files).
Notation is_done := (is_done X V E).

(** A module is evaluated at most once: once it has been recorded, no later
    import expands it, runs it or records it again. *)
Theorem C54_evaluated_once w st l1 p t e l2 : reachable w st -> log st = l1 ++ Done p t e :: l2 ->
  ~ (exists ev, In ev l2 /\ ev_path _ _ _ ev = p).
Proof.
  intros R Q (ev & I1 & P). destruct (reachable_inv _ _ _ _ _ _ _ _ _ _ _ _ CWD R) as (WF & _).
  rewrite Q in WF. apply in_split in I1 as (a & b & ->).
  replace (l1 ++ Done p t e :: a ++ ev :: b) with ((l1 ++ Done p t e :: a) ++ ev :: b) in WF by now rewrite <- app_assoc.
  assert (D : is_done p t (l1 ++ Done p t e :: a)) by (exists e; apply in_or_app; right; now left).
  pose proof (wf_at _ _ _ _ _ _ _ _ _ _ _ _ WF) as K. destruct ev; simpl in P; subst; destruct K as (N & _); exact (N _ D).
Qed.

(** A module runs only after every module it imports has been recorded. *)
Theorem C54_imports_first w st l1 p e l2 q : reachable w st -> log st = l1 ++ Started p e :: l2 ->
  imports p q -> exists t, is_done q t l1.
Proof.
  intros R Q I1. destruct (reachable_inv _ _ _ _ _ _ _ _ _ _ _ _ CWD R) as (WF & _). rewrite Q in WF.
  apply wf_at in WF as (_ & ts & F & _). unfold ModulesProofs.imports in I1. revert I1 F. generalize (import_list p). intros qs I1 F.
  induction F; [destruct I1|]. destruct I1 as [<-|I1]; eauto.
Qed.

(** The environment a module starts in: a name has the value exported by the
    first of its imports, in the order of the import forms, that exports it as a
    variable; otherwise its value in the base environment. *)
Theorem C54_starting_environment w st l1 p e l2 : reachable w st -> log st = l1 ++ Started p e :: l2 ->
  exists ts, Forall2 (fun q t => is_done q t l1) (import_list p) ts /\
    forall n, e n = match first_value X V ts n with Some v => Some v | None => base n end.
Proof.
  intros R Q. destruct (reachable_inv _ _ _ _ _ _ _ _ _ _ _ _ CWD R) as (WF & _). rewrite Q in WF.
  apply wf_at in WF as (_ & ts & F & H). eauto.
Qed.

(** What the expander is given: the module's forms other than import and export
    forms in their order, for each name the transformer exported by the first
    import that exports one, and the environment above for running transformers. *)
Theorem C54_expander_input w st l1 p es xs stx l2 : reachable w st -> log st = l1 ++ Expanding p es xs stx :: l2 ->
  es = body_of p /\
  exists ts e, Forall2 (fun q t => is_done q t l1) (import_list p) ts /\
    (forall n, assocl n xs = first_xform X V ts n) /\ stx = stxbase e /\
    forall n, e n = match first_value X V ts n with Some v => Some v | None => base n end.
Proof.
  intros R Q. destruct (reachable_inv _ _ _ _ _ _ _ _ _ _ _ _ CWD R) as (WF & _). rewrite Q in WF.
  apply wf_at in WF as (_ & B & ts & e0 & F & G & -> & H). split; auto. exists ts, e0. auto.
Qed.

(** What a recorded module exports: exactly the names its export forms list;
    each is the transformer of that name after expansion if there is one, and
    otherwise the value of the variable when the body has finished. *)
Theorem C54_exports w st l1 p t e l2 : reachable w st -> log st = l1 ++ Done p t e :: l2 ->
  (forall n, In n (map fst (fst t) ++ map fst (snd t)) <-> listed X V E files l1 p n) /\
  exists xs0 stx sc w0 es xs stx' w1 e0 w2 w3,
    In (Expanding p (body_of p) xs0 stx) l1 /\ In (Started p e0) l1 /\
    expandm p (body_of p) xs0 stx sc w0 = Ok (es, xs, stx', w1) /\ evalm es e0 w2 = Ok (e, w3) /\
    (forall n x, In (n, x) (fst t) -> assocl n xs = Some x) /\
    (forall n v, In (n, v) (snd t) -> assocl n xs = None /\ e n = Some v).
Proof.
  intros R Q. destruct (reachable_inv _ _ _ _ _ _ _ _ _ _ _ _ CWD R) as (WF & _). rewrite Q in WF.
  apply wf_at in WF as (_ & B & C). split; auto.
Qed.

(** A successful import has evaluated everything the module imports, directly or
    indirectly ... *)
Theorem C54_import_loads_all w st f name st' p q : reachable w st -> load_or_import f name st = (Ok tt, st') ->
  resolve cwd name = Some p -> reaches p q -> exists t, is_done q t (log st').
Proof.
  intros R H P RQ. pose proof (reachable_inv _ _ _ _ _ _ _ _ _ _ _ _ CWD R) as IV.
  destruct (load_ok _ _ _ _ _ _ _ _ _ _ _ _ _ _ _ CWD IV H) as (IV' & G). destruct (G p P) as (_ & D & _).
  eapply done_closed; [apply IV'|exact RQ|auto].
Qed.
(** ... and an import, successful or not, runs nothing else. *)
Theorem C54_import_runs_only_imports w st f name r st' p : reachable w st -> load_or_import f name st = (r, st') ->
  resolve cwd name = Some p -> exists evs, log st' = log st ++ evs /\ Forall (fun ev => reaches p (ev_path _ _ _ ev)) evs.
Proof.
  intros R H P. pose proof (reachable_inv _ _ _ _ _ _ _ _ _ _ _ _ CWD R) as IV.
  destruct (load_ok _ _ _ _ _ _ _ _ _ _ _ _ _ _ _ CWD IV H) as (IV' & G). apply (G p P).
Qed.

(** Importing a module that has been recorded does nothing. *)
Theorem C54_import_again w st f name p t : reachable w st -> resolve cwd name = Some p -> is_done p t (log st) ->
  load_or_import f name st = (Ok tt, st).
Proof.
  intros R P D. pose proof (reachable_inv _ _ _ _ _ _ _ _ _ _ _ _ CWD R) as (_ & TB & _). apply TB in D.
  unfold Modules.load_or_import, load_checked. now rewrite P, D.
Qed.

(** A failed import: what was recorded before or during it stays recorded, the
    module itself is not, so a later import tries it again. *)
Theorem C54_failed_import w st f name st' p : reachable w st -> load_or_import f name st = (Err, st') ->
  resolve cwd name = Some p ->
  (forall q t, is_done q t (log st) -> is_done q t (log st')) /\ (forall t, ~ is_done p t (log st')).
Proof.
  intros R H P. pose proof (reachable_inv _ _ _ _ _ _ _ _ _ _ _ _ CWD R) as IV.
  destruct (load_ok _ _ _ _ _ _ _ _ _ _ _ _ _ _ _ CWD IV H) as (IV' & G). destruct (G p P) as ((evs & Q & _) & _ & N).
  split; [|exact (N ltac:(discriminate))]. intros q t D. rewrite Q. now apply is_done_app.
Qed.

(** A module on an import cycle is never recorded, and an import that reaches one
    never succeeds. *)
Theorem C54_cycle_never_loaded w st f name st' p q : reachable w st -> load_or_import f name st = (Ok tt, st') ->
  resolve cwd name = Some p -> reaches p q -> ~ clos_trans _ imports q q.
Proof.
  intros R H P RQ. destruct (C54_import_loads_all _ _ _ _ _ _ _ R H P RQ) as (t & D).
  pose proof (reachable_inv _ _ _ _ _ _ _ _ _ _ _ _ CWD R) as IV.
  destruct (load_ok _ _ _ _ _ _ _ _ _ _ _ _ _ _ _ CWD IV H) as (IV' & _).
  eapply done_not_cycle; [apply IV'|exact D].
Qed.

(** With no import cycle below it (and reading, expanding and evaluating that
    end), an import ends. *)
Theorem C54_acyclic_import_ends st name p :
  (forall q, files q <> Hang) -> (forall q es xs stx sc w, expandm q es xs stx sc w <> Hang) ->
  (forall es e w, evalm es e w <> Hang) ->
  resolve cwd name = Some p -> Acc (fun b a => imports a b) p ->
  exists f, fst (load_or_import f name st) <> Hang.
Proof.
  intros HF HX HE P A. pose proof (resolve_abs cwd _ _ CWD P) as AP.
  destruct (acc_stops X V E W files expandm evalm base stxbase cwd HF HX HE p A AP st) as (f & H). exists f.
  unfold Modules.load_or_import, load_checked in *. rewrite P. unfold resolve in H at 1. rewrite AP in H. exact H.
Qed.

(** How an import ends does not depend on how long one waits: more fuel never
    changes an answer. *)
Theorem C54_import_deterministic f g name st r st' : load_or_import f name st = (r, st') -> r <> Hang -> f <= g ->
  load_or_import g name st = (r, st').
Proof. intros H N L. eapply load_checked_mono; eauto. now apply no_check_mono. Qed.
End Thm.

(** ** A concrete system: definitions of variables and of transformers *)
Inductive ex : Type := Def (n : str) (v : nat) | Mac (n : str) (x : nat) | Fail.
Definition S0 (s : string) : str := list_ascii_of_string s.
Fixpoint ex_macs (es : list ex) : xforms nat :=
  match es with [] => [] | Mac n x :: r => (n, x) :: ex_macs r | _ :: r => ex_macs r end.
Definition ex_expand (p : str) (es : list ex) (xs : xforms nat) (stx : env nat) (sc : list str) (w : list nat) :
  res (list ex * xforms nat * env nat * list nat) :=
  Ok (filter (fun e => match e with Mac _ _ => false | _ => true end) es, ex_macs es ++ xs, stx, w).
(** Running a definition also prints its value. *)
Fixpoint ex_eval (es : list ex) (e : env nat) (w : list nat) : res (env nat * list nat) :=
  match es with
  | [] => Ok (e, w)
  | Def n v :: r => ex_eval r (env_set nat e n v) (w ++ [v])
  | Mac _ _ :: r => ex_eval r e w
  | Fail :: _ => Err
  end.
Definition ex_base : env nat := fun n => if str_eq_dec n (S0 "car") then Some 100 else None.
Definition ex_load (files : str -> res (list (form ex))) := load_or_import nat nat ex (list nat) files ex_expand ex_eval ex_base (fun e => e) (S0 "/w").
Definition ex_st0 := state0 nat nat ex (list nat) [].
Definition dones {A B C} (l : list (event A B C)) : list str := flat_map (fun ev => match ev with Done p _ _ => [p] | _ => [] end) l.

(** A diamond: main imports a and b, both import c; a and b export the same name. *)
Definition ex_files (p : str) : res (list (form ex)) :=
  if str_eq_dec p (S0 "/w/main") then Ok [FImport [IStr (S0 "a"); IStr (S0 "b")] true; FExport [XName (S0 "m"); XAll (S0 "a")] true; FExpr (Def (S0 "m") 1)]
  else if str_eq_dec p (S0 "/w/a") then Ok [FImport [IStr (S0 "c")] true; FExpr (Def (S0 "x") 2); FExport [XName (S0 "x"); XName (S0 "z")] true]
  else if str_eq_dec p (S0 "/w/b") then Ok [FImport [IStr (S0 "c")] true; FExpr (Def (S0 "x") 3); FExport [XName (S0 "x"); XName (S0 "car")] true]
  else if str_eq_dec p (S0 "/w/c") then Ok [FExpr (Def (S0 "y") 4); FExpr (Mac (S0 "z") 5); FExport [XName (S0 "z")] true]
  else Err.
Definition ex_after := snd (ex_load ex_files 4 (S0 "main") ex_st0).
Example ex_diamond : fst (ex_load ex_files 4 (S0 "main") ex_st0) = Ok tt /\
  dones (log ex_after) = map S0 ["/w/c"; "/w/a"; "/w/b"; "/w/main"]%string /\ world ex_after = [4; 2; 3; 1] /\
  assocl (S0 "/w/main") (tbl ex_after) = Some ([(S0 "z", 5)], [(S0 "m", 1); (S0 "x", 2)]).
Proof. split; [vm_compute; reflexivity|]. split; [vm_compute; reflexivity|]. split; vm_compute; reflexivity. Qed.
Example ex_diamond_reachable :
  reachable nat nat ex (list nat) ex_files ex_expand ex_eval ex_base (fun e => e) (S0 "/w") [] ex_after.
Proof.
  apply (reach_step _ _ _ _ _ _ _ _ _ _ _ _ 4 (S0 "main") (Ok tt) _ (reach0 _ _ _ _ _ _ _ _ _ _ _)); [|discriminate].
  destruct ex_diamond as (H & _). rewrite <- H. unfold ex_after. exact (surjective_pairing _).
Qed.

(** An export that is not defined, and a body that fails: the import fails, what
    it had completed stays. *)
Definition bad_files (p : str) : res (list (form ex)) :=
  if str_eq_dec p (S0 "/w/main") then Ok [FImport [IStr (S0 "c")] true; FExpr Fail]
  else if str_eq_dec p (S0 "/w/u") then Ok [FImport [IStr (S0 "c")] true; FExport [XName (S0 "nope")] true]
  else if str_eq_dec p (S0 "/w/c") then Ok [FExpr (Def (S0 "y") 4)]
  else Err.
Example ex_failures :
  let r1 := ex_load bad_files 3 (S0 "main") ex_st0 in
  let r2 := ex_load bad_files 3 (S0 "u") (snd r1) in
  fst r1 = Err /\ fst r2 = Err /\ dones (log (snd r2)) = [S0 "/w/c"] /\ world (snd r2) = [4].
Proof. split; [vm_compute; reflexivity|]. split; [vm_compute; reflexivity|]. split; vm_compute; reflexivity. Qed.

(** ** What does not hold *)

(** Importing need not end, nor fail: two modules that import each other are read
    again and again. *)
Definition cyc_files (p : str) : res (list (form ex)) :=
  if str_eq_dec p (S0 "/w/a") then Ok [FImport [IStr (S0 "b")] true]
  else if str_eq_dec p (S0 "/w/b") then Ok [FImport [IStr (S0 "a")] true]
  else Err.
Theorem C54_cyclic_import_hangs_refuted : forall f, fst (ex_load cyc_files f (S0 "a") ex_st0) = Hang.
Proof.
  assert (G : forall f, no_check nat nat ex (list nat) cyc_files ex_expand ex_eval ex_base (fun e => e) (S0 "/w") f (S0 "/w/a") ex_st0 = (Hang, ex_st0) /\
                        no_check nat nat ex (list nat) cyc_files ex_expand ex_eval ex_base (fun e => e) (S0 "/w") f (S0 "/w/b") ex_st0 = (Hang, ex_st0)).
  { induction f as [|f [IHa IHb]]; [split; reflexivity|].
    assert (Sa : split_path (S0 "/w/a") = Some (Some (S0 "/w"), S0 "a")) by (vm_compute; reflexivity).
    assert (Sb : split_path (S0 "/w/b") = Some (Some (S0 "/w"), S0 "b")) by (vm_compute; reflexivity).
    assert (Fa : cyc_files (S0 "/w/a") = Ok [FImport [IStr (S0 "b")] true]) by (vm_compute; reflexivity).
    assert (Fb : cyc_files (S0 "/w/b") = Ok [FImport [IStr (S0 "a")] true]) by (vm_compute; reflexivity).
    assert (Ba : sub_path (Some (S0 "/w")) (S0 "a") = Some (S0 "/w/a")) by (vm_compute; reflexivity).
    assert (Bb : sub_path (Some (S0 "/w")) (S0 "b") = Some (S0 "/w/b")) by (vm_compute; reflexivity).
    assert (Ra : resolve (S0 "/w") (S0 "/w/a") = Some (S0 "/w/a")) by (vm_compute; reflexivity).
    assert (Rb : resolve (S0 "/w") (S0 "/w/b") = Some (S0 "/w/b")) by (vm_compute; reflexivity).
    split; cbn [no_check]; unfold load_module.
    - rewrite Sa, Fa. cbn [import_phase imports_loop]. rewrite Bb. unfold load_checked at 1. rewrite Rb. simpl assocl. rewrite IHb. reflexivity.
    - rewrite Sb, Fb. cbn [import_phase imports_loop]. rewrite Ba. unfold load_checked at 1. rewrite Ra. simpl assocl. rewrite IHa. reflexivity. }
  intros f. unfold ex_load, load_or_import, load_checked.
  assert (R : resolve (S0 "/w") (S0 "a") = Some (S0 "/w/a")) by (vm_compute; reflexivity). rewrite R. simpl assocl.
  destruct (G f) as (-> & _). reflexivity.
Qed.

(** A file is not evaluated once but once per spelling of its path: here the
    file system ignores a [./] and the same file is run twice. *)
Definition same_files (p : str) : res (list (form ex)) :=
  if str_eq_dec p (S0 "/w/main") then Ok [FImport [IStr (S0 "c"); IStr (S0 "./c")] true]
  else if str_eq_dec p (S0 "/w/c") then Ok [FExpr (Def (S0 "y") 4)]
  else if str_eq_dec p (S0 "/w/./c") then Ok [FExpr (Def (S0 "y") 4)]
  else Err.
Theorem C54_one_evaluation_per_file_refuted :
  let r := ex_load same_files 3 (S0 "main") ex_st0 in
  fst r = Ok tt /\ same_files (S0 "/w/./c") = same_files (S0 "/w/c") /\ world (snd r) = [4; 4].
Proof. split; [vm_compute; reflexivity|]. split; vm_compute; reflexivity. Qed.

(** After load, the prompt evaluates its input in the environment that was used
    for expansion: the module's own definitions are not bound in it. *)
Definition prompt_after := snd (ex_load ex_files 4 (S0 "a") ex_st0).
Theorem C54_prompt_sees_definitions_refuted :
  fst (ex_load ex_files 4 (S0 "a") ex_st0) = Ok tt /\
  (exists t e, In (Done (S0 "/w/a") t e) (log prompt_after) /\ e (S0 "x") = Some 2) /\
  exists ev stx, enter_envs nat nat ex (list nat) (S0 "/w") (S0 "a") prompt_after = Some (ev, stx) /\
    ev (S0 "x") = None /\ stx (S0 "x") = Some 2.
Proof.
  split; [vm_compute; reflexivity|]. split.
  - assert (H : match rev (log prompt_after) with
                | Done p t e :: _ => (p, e (S0 "x")) = (S0 "/w/a", Some 2)
                | _ => False end) by (vm_compute; reflexivity).
    destruct (rev (log prompt_after)) as [|[| |p t e] l] eqn:R; try tauto. injection H as -> H2.
    exists t, e. split; auto. apply in_rev. rewrite R. now left.
  - assert (H : match enter_envs nat nat ex (list nat) (S0 "/w") (S0 "a") prompt_after with
                | Some (ev, stx) => (ev (S0 "x"), stx (S0 "x")) = (None, Some 2)
                | None => False end) by (vm_compute; reflexivity).
    destruct (enter_envs nat nat ex (list nat) (S0 "/w") (S0 "a") prompt_after) as [[ev stx]|]; [|tauto].
    injection H as H1 H2. exists ev, stx. auto.
Qed.

(** A module that defines and exports a variable does not export that variable
    when it also imports a transformer of the same name. *)
Definition own_files (p : str) : res (list (form ex)) :=
  if str_eq_dec p (S0 "/w/main") then Ok [FImport [IStr (S0 "c")] true; FExpr (Def (S0 "z") 9); FExport [XName (S0 "z")] true]
  else if str_eq_dec p (S0 "/w/c") then Ok [FExpr (Mac (S0 "z") 5); FExport [XName (S0 "z")] true]
  else Err.
Theorem C54_own_definition_exported_refuted :
  let r := ex_load own_files 3 (S0 "main") ex_st0 in
  fst r = Ok tt /\ assocl (S0 "/w/main") (tbl (snd r)) = Some ([(S0 "z", 5)], []).
Proof. split; vm_compute; reflexivity. Qed.
Print Assumptions C54_evaluated_once.
Print Assumptions C54_imports_first.
Print Assumptions C54_starting_environment.
Print Assumptions C54_expander_input.
Print Assumptions C54_exports.
Print Assumptions C54_import_loads_all.
Print Assumptions C54_import_runs_only_imports.
Print Assumptions C54_import_again.
Print Assumptions C54_failed_import.
Print Assumptions C54_cycle_never_loaded.
Print Assumptions C54_acyclic_import_ends.
Print Assumptions C54_import_deterministic.
Print Assumptions C54_cyclic_import_hangs_refuted.
Print Assumptions C54_one_evaluation_per_file_refuted.
Print Assumptions C54_prompt_sees_definitions_refuted.
Print Assumptions C54_own_definition_exported_refuted.
