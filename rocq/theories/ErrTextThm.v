(** C73: what a program error prints. *)
From Coq Require Import ZArith NArith Bool Ascii String List Arith Lia.
From Verif Require Import Base Heap HeapM Records RecordsThm Port PortThm Format FormatThm Ast Code Compile Sem Vm CompRel Sim SimLemmas SimProofs TailProofs SimThm Raise RaiseThm Names Exn ExnThm ErrText.
Import ListNotations.
Local Open Scope list_scope.
Local Open Scope nat_scope.

(** * Specification *)

(** The report of an error with a name (or none), a message and objects, the latter as
    write prints them: a line with the name and the message, then the objects. *)
Definition report_lines (who : option (list byte)) (msg : list byte) (objs : list (list byte)) : list (list byte) :=
  ((match who with Some n => n | None => s2b "error" end) ++ s2b ": " ++ msg) ::
  match objs with
  | [] => []
  | [x] => [s2b "  argument: " ++ x]
  | _ => s2b "  arguments...:" :: map (fun x => s2b "   " ++ x) objs
  end.
(** The same outside any call. *)
Definition shutdown_lines (who : option (list byte)) (msg : list byte) (objs : list (list byte)) : list (list byte) :=
  (match who with Some n => s2b "Error in " ++ n | None => s2b "Error" end ++ s2b ": " ++ msg) :: map (fun x => s2b " " ++ x) objs.
Definition lines (ls : list (list byte)) : list byte := flat_map line ls.
(** Text without the character 0 *)
Definition plain (t : list byte) : Prop := ~ In NUL t.

(** * Lemmas *)
Lemma cstr_plain t : plain t -> cstr t = t.
Proof. intros P. apply cstr_sym. intros c I ->. apply P. exact I. Qed.
Lemma plain_app a b : plain a -> plain b -> plain (a ++ b).
Proof. intros A B I. apply in_app_or in I. destruct I; auto. Qed.
Lemma plain_flat {A} (f : A -> list byte) l : (forall x, In x l -> plain (f x)) -> plain (flat_map f l).
Proof. intros H I. apply in_flat_map in I as [x [I1 I2]]. exact (H x I1 I2). Qed.
Ltac plain_tac := let I := fresh in intros I; cbn in I; repeat (destruct I as [I|I]; [discriminate|]); exact I.

Section C73.
  Variable procs : val -> bool.
  Variables disp wr : heap -> val -> list byte.
  Variable T : kind -> val.
  Variable ep : nat.
  Hypothesis shows_strings : forall h v b, text h v b -> disp h v = b.

  (** error with any name and any objects, to the end of the process *)
  Theorem C73_error_to_exit who n msg m args s t :
    ready T s -> out_port (xps s) ep t -> (n = None /\ who = VFalse) \/ (exists b, n = Some b /\ text (xh s) who b) -> text (xh s) msg m ->
    (forall x, In x args -> plain (wr (xh s) x)) -> plain m ->
    exists v s', error procs disp wr T who msg args s = XRaise v s' /\
      exists f0, forall f, f0 <= f -> exists s2, handled procs disp wr T ep f v s' = XExit 1 s2 /\
        out_port (xps s2) ep (t ++ lines (report_lines n m (map (wr (xh s)) args))).
  Proof.
    intros R OP W M PL PM. assert (W' : named who \/ str_val (xh s) who) by (destruct W as [[_ ->]|[b [_ W]]]; [left; left; auto|right; exists b; auto]).
    destruct (C63_error procs disp wr T who msg args s R W' (ex_intro _ _ M)) as [v [s' [fs [E [RO [[x [-> [EQ1 EQ2]]] [GR [R' [_ J]]]]]]]]].
    exists v, s'. split; auto. assert (OP' : out_port (xps s') ep t). { eapply out_port_same; [|exact OP]. apply J. destruct OP as [p [N _]]. apply nth_error_Some. congruence. }
    assert (EX : explains disp T (xh s') v (heading disp (xh s') who x)).
    { eapply EExn; [apply exc_self; eauto; apply R'|]. intros k fs NK [r [RO2 S2]]. destruct (record_fun _ _ _ _ _ _ RO RO2) as [<- _]. apply sub_kinds in S2; [|apply R']. destruct S2 as [S2|S2]; congruence. }
    destruct (C63_report procs disp wr T ep v s' _ t R' OP' EX) as [f0 P]. exists f0. intros f L. destruct (P f L) as [ps [E1 [OP1 _]]]. eexists. split; [exact E1|]. cbn [xps].
    replace (lines (report_lines n m (map (wr (xh s)) args))) with (heading disp (xh s') who x); auto.
    assert (HX : disp (xh s') x = m ++ match args with [] => [] | _ => [LF] ++ match args with [y] => s2b "  argument: " ++ wr (xh s) y | _ => s2b "  arguments...:" ++ flat_map (fun y => [LF] ++ s2b "   " ++ wr (xh s) y) args end end).
    { destruct args as [|a q]; [rewrite (EQ1 eq_refl), app_nil_r; apply shows_strings; eapply text_grows; eauto|].
      rewrite (shows_strings _ _ _ (EQ2 ltac:(discriminate))). unfold error_text. rewrite (shows_strings _ _ _ M). apply cstr_plain.
      apply plain_app; auto. apply plain_app; [plain_tac|]. assert (PA := PL a (or_introl eq_refl)). destruct q as [|b q]; [apply plain_app; [plain_tac|auto]|].
      apply plain_app; [plain_tac|]. apply plain_flat. intros y Iy. apply plain_app; [plain_tac|]. apply plain_app; [plain_tac|auto]. }
    assert (HH : heading disp (xh s') who x = line ((match n with Some b => b | None => s2b "error" end) ++ s2b ": " ++ disp (xh s') x)).
    { unfold heading. destruct W as [[-> ->]|[b [-> W]]]; [reflexivity|]. assert (TW := text_grows _ _ _ _ GR W). rewrite (shows_strings _ _ _ TW).
      destruct W as [l [? [-> _]]]. reflexivity. }
    rewrite HH, HX. unfold lines, report_lines, line. cbn [flat_map]. rewrite <- !app_assoc. f_equal. f_equal. f_equal.
    destruct args as [|a [|b q]]; [reflexivity| |].
    - cbn. rewrite <- ?app_assoc. reflexivity.
    - assert (X : forall l, flat_map (fun y => [LF] ++ s2b "   " ++ wr (xh s) y) l ++ [LF] = [LF] ++ flat_map (fun t => t ++ [LF]) (map (fun x => s2b "   " ++ x) (map (wr (xh s)) l))).
      { clear. induction l as [|y l IH]; auto. cbn [flat_map map]. rewrite <- app_assoc, IH. rewrite <- !app_assoc. reflexivity. }
      transitivity ([LF] ++ s2b "  arguments...:" ++ (flat_map (fun y => [LF] ++ s2b "   " ++ wr (xh s) y) (a :: b :: q) ++ [LF])).
      + rewrite !app_assoc. reflexivity.
      + rewrite X. cbn [flat_map map]. rewrite <- !app_assoc. reflexivity.
  Qed.

  Variable prim : N -> list val -> heap -> option presult.
  Variables p_set p_get p_cset : N.
  Hypothesis set_apart : forall p vs h, p = p_set \/ p = p_get \/ p = p_cset -> prim p vs h = None.

  (** [ends say t m er who msg objs]: an error that thread [t] meets in state [m] prints
      the report with this name, message and objects and ends the process with status 1:
      at once outside any call; otherwise by way of a call of the procedure [er], which is
      error, in place of the failing frame, and of the handler of the prelude. *)
  Definition ends (say : err -> complaint_of) (t : thr) (m : mst) (er : val) (e : err) (who : option (list byte)) (msg : list byte) (objs : list val) : Prop :=
    (m_cc m = [] ->
       Raise.xstep prim p_set p_get p_cset say t = XShutdown /\
       forall out, shutdown_text (wr (d_heap (m_data m))) (say e) out = out ++ lines (shutdown_lines who msg (map (wr (d_heap (m_data m))) objs))) /\
    (m_cc m <> [] ->
       exists t' w g, Raise.xreaches prim p_set p_get p_cset say t t' /\ calls t' er (w :: g :: objs) /\ same_continuation m (x_m t') /\
         extends (d_heap (m_data m)) (d_heap (m_data (x_m t'))) /\
         forall s out, xh s = d_heap (m_data (x_m t')) -> ready T s -> out_port (xps s) ep out -> (forall x, In x objs -> plain (wr (xh s) x)) ->
           exists v s', error procs disp wr T w g objs s = XRaise v s' /\
             exists f0, forall f, f0 <= f -> exists s2, handled procs disp wr T ep f v s' = XExit 1 s2 /\
               out_port (xps s2) ep (out ++ lines (report_lines who msg (map (wr (xh s)) objs)))).
  (** The state of a program after the prelude: its handler of errors of C code is in
      place, apply and error are procedures. *)
  Definition prelude_in_place (t : thr) (s : store) (er : val) : Prop :=
    proc_at (x_chandler t) (procs_of s) = Some (PClo [c_handler] []) /\
    (exists ap, glob_ref (Id "apply") (glob_of s) = Some ap /\ proc_at ap (procs_of s) = Some PApply) /\
    glob_ref (Id "error") (glob_of s) = Some er /\ proc_at er (procs_of s) <> None.

  Lemma put_objects_lines w objs : forall out, put_objects w objs out ++ [LF] = (out ++ [LF]) ++ lines (map (fun x => s2b " " ++ x) (map w objs)).
  Proof.
    induction objs as [|x r IH]; intros out; cbn [put_objects map lines flat_map]; [rewrite app_nil_r; reflexivity|].
    rewrite IH. unfold lines, line. rewrite <- !app_assoc. reflexivity.
  Qed.
  Lemma plain_cstr b : plain (cstr b).
  Proof.
    induction b as [|c b IH]; [intros []|]. simpl. destruct (Ascii.eqb_spec c NUL) as [E|E]; [intros []|]. intros [I|I]; [congruence|exact (IH I)].
  Qed.

  Theorem C73_error_ends : forall say t e m s er name msg objs,
    step prim (x_m t) = Fail e m -> drel s (m_data m) -> prelude_in_place t s er -> say e = (name, msg, objs) ->
    ends say t m er e (option_map cstr name) (cstr msg) objs.
  Proof.
    intros say t e m s er name msg objs St D [PC [[ap [GA PA]] [GE PE]]] SE. split.
    - intros CC. split; [eapply C50_top_level_refuted; eauto|]. intros out. unfold shutdown_text. rewrite SE. change (ascii_of_nat 10) with LF. rewrite put_objects_lines.
      unfold lines, shutdown_lines, line. cbn [flat_map]. destruct name as [b|]; cbn [option_map]; rewrite <- !app_assoc; reflexivity.
    - intros CC. destruct (C50_c_error_becomes_error_partial prim p_set p_get p_cset say set_apart t e m s ap er St CC D PC GA PA GE PE) as [t' [w [g [h [X1 [X2 [X3 [X4 [X5 [X6 X7]]]]]]]]]].
      rewrite SE in X2. cbn [snd] in X2. unfold reported in X5. rewrite SE in X5. cbn [fst snd] in X5. destruct X5 as [Y1 [a [-> Y2]]].
      exists t', w, (VPtr a). split; auto. split; auto. split; auto. split; [rewrite X6; auto|]. intros xs out XH R OP PL.
      rewrite X6 in XH. apply C73_error_to_exit; auto using plain_cstr; [|exists a, msg; rewrite XH; auto].
      destruct name as [b|]; [right|left; auto]. destruct Y1 as [l [-> Y1]]. exists (cstr b). split; auto. exists l, b. rewrite XH. auto.
  Qed.

  (** What the errors of the machine say. *)
  Section Kinds.
    Variables (nm : names) (arity_obj : arity -> val) (list_str : val) (prim_says : herr -> complaint_of).
    Notation say m := (says nm (m_data m) arity_obj list_str prim_says).
    Variables (t : thr) (m : mst) (s : store) (er : val).
    Hypothesis D : drel s (m_data m).
    Hypothesis PP : prelude_in_place t s er.

    (** A variable without value: its name *)
    Theorem C73_no_value x : step prim (x_m t) = Fail (ErrInit x) m ->
      ends (say m) t m er (ErrInit x) None (s2b "cannot use before initialization") [ident_val x].
    Proof. intros St. apply (C73_error_ends (say m) t _ m s er None (s2b "cannot use before initialization") _ St D PP eq_refl). Qed.
    (** The application of something else than a procedure: that value *)
    Theorem C73_not_a_procedure v : step prim (x_m t) = Fail (ErrNotProc v) m ->
      ends (say m) t m er (ErrNotProc v) None (s2b "expected procedure") [v].
    Proof. intros St. apply (C73_error_ends (say m) t _ m s er None (s2b "expected procedure") _ St D PP eq_refl). Qed.
    (** A call with the wrong number of arguments: the name of the procedure, if it has
        one, the number it takes and the number given *)
    Theorem C73_arity l c n : step prim (x_m t) = Fail (ErrArity (VPtr l) n) m -> clo_ref l (d_clos (m_data m)) = Some c ->
      let who := match nm l with Some (VSym b) | Some (VGensym b _) => Some (cstr b) | Some _ => Some [] | None => None end in
      (forall k, arity_of (c_code c) = AFix k ->
         ends (say m) t m er (ErrArity (VPtr l) n) who (s2b "arity mismatch") [VFix (Z.of_nat k); VFix (Z.of_nat n)]) /\
      (forall k, arity_of (c_code c) = APair k AFalse ->
         ends (say m) t m er (ErrArity (VPtr l) n) who (s2b "arity mismatch, expected at least") [VFix (Z.of_nat k); VFix (Z.of_nat n)]).
    Proof.
      intros St CL who.
      assert (WH : option_map cstr (c_name (nm l)) = who) by (unfold who, c_name, symbol_text; destruct (nm l) as [[]|]; cbn; rewrite ?cstr_cstr; reflexivity).
      rewrite <- WH. split; intros k A.
      - apply (C73_error_ends (say m) t _ m s er (c_name (nm l)) (s2b "arity mismatch") _ St D PP). unfold says, arity_report. rewrite CL, A. reflexivity.
      - apply (C73_error_ends (say m) t _ m s er (c_name (nm l)) (s2b "arity mismatch, expected at least") _ St D PP). unfold says, arity_report. rewrite CL, A. reflexivity.
    Qed.
    (** The wrong number of results: the number wanted and the number there is, if they
        are below 32768 *)
    Theorem C73_results_partial k n : step prim (x_m t) = Fail (ErrResults k n) m -> (Z.of_nat k < 32768)%Z -> (Z.of_nat n < 32768)%Z ->
      ends (say m) t m er (ErrResults k n) None (s2b "result arity mismatch") [VFix (Z.of_nat k); VFix (Z.of_nat n)].
    Proof.
      intros St K N. assert (X : forall i, (Z.of_nat i < 32768)%Z -> to_short i = Z.of_nat i) by (intros i Hi; unfold to_short; rewrite Z.mod_small by lia; lia).
      apply (C73_error_ends (say m) t _ m s er None (s2b "result arity mismatch") _ St D PP). unfold says. rewrite !X by auto. reflexivity.
    Qed.
    (** apply with something else than a list: that value.  Partial: a value that is not
        a procedure is reported in the same way, see [C73_apply_refuted]. *)
    Theorem C73_apply_partial v : step prim (x_m t) = Fail (ErrApply v) m ->
      ends (say m) t m er (ErrApply v) (Some (s2b "apply")) (s2b "type violation") [list_str; v].
    Proof. intros St. apply (C73_error_ends (say m) t _ m s er (Some (s2b "apply")) (s2b "type violation") _ St D PP eq_refl). Qed.
    (** FINDING: 65537 results where 1 is wanted are reported as 1 where 1 is wanted. *)
    Theorem C73_results_refuted : step prim (x_m t) = Fail (ErrResults 1 (1 + N.to_nat 65536)) m ->
      ends (say m) t m er (ErrResults 1 (1 + N.to_nat 65536)) None (s2b "result arity mismatch") [VFix 1; VFix 1].
    Proof.
      intros St. apply (C73_error_ends (say m) t _ m s er None (s2b "result arity mismatch") _ St D PP). unfold says, to_short.
      rewrite Nat2Z.inj_add, N_nat_Z. reflexivity.
    Qed.
  End Kinds.

  (** For whole programs: if the meaning of a top-level expression is an error, running it
      ends the process with the report of that error. *)
  Theorem C73_program_partial : forall nm arity_obj list_str prim_says e c s d y s' stk env vc vals h ch er,
    compile_top e = Some c -> wf false true e = true -> eval prim true [] s e (RErr y) s' -> drel s d -> env < List.length (d_envs d) ->
    prelude_in_place (Thr (start c stk env vc vals d) h ch) s' er ->
    exists m0 m name msg objs,
      (forall say, Raise.xreaches prim p_set p_get p_cset say (Thr (start c stk env vc vals d) h ch) (Thr m0 h ch)) /\
      step prim m0 = Fail y m /\ drel s' (m_data m) /\
      says nm (m_data m) arity_obj list_str prim_says y = (name, msg, objs) /\
      ends (says nm (m_data m) arity_obj list_str prim_says) (Thr m0 h ch) m er y (option_map cstr name) (cstr msg) objs.
  Proof.
    intros nm ao ls ps e c s d y s' stk env vc vals h ch er CT W EV D LE PP.
    destruct (top_run prim e c s d (RErr y) s' stk env vc vals CT W EV D LE) as [m [EN D']].
    assert (Z : exists m0, reaches prim (start c stk env vc vals d) m0 /\ step prim m0 = Fail y m) by (destruct EN as [m0 [A [B _]]]; eauto).
    destruct Z as [m0 [R St]]. destruct (says nm (m_data m) ao ls ps y) as [[name msg] objs] eqn:SE. exists m0, m, name, msg, objs.
    split; [intros say; apply lift; auto|]. split; auto. split; auto. split; auto. eapply C73_error_ends; eauto.
  Qed.
End C73.

(** FINDING: a value that is not a procedure, given to apply as its procedure, is reported
    as not being a list, also when it is a list. *)
Theorem C73_apply_refuted : forall prim s f g vs xs nm d arity_obj list_str prim_says,
  proc_at f (procs_of s) = Some PApply -> proc_at g (procs_of s) = None -> vs <> [] -> list_at (heap_of s) g xs -> text (heap_of s) list_str (s2b "list?") ->
  exists y, Sem.apply prim s f (g :: vs) (RErr y) s /\
    says nm d arity_obj list_str prim_says y = (Some (s2b "apply"), s2b "type violation", [list_str; g]).
Proof. intros prim s f g vs xs nm d ao ls ps PF PG NV LA TX. exists (ErrApply g). split; [apply ApApplyProc; auto|reflexivity]. Qed.

(** ** Examples *)

(** A program whose heap holds the types of exceptions and the string list?; its handler
    of C errors is the prelude's. *)
Definition heap73 : heap := xh ex_state ++ [CStr (s2b "list?"); CPair (VFix 1) VNull].
Definition T73 : kind -> val := ex_T.
Definition say73 (d : data) : err -> complaint_of := says (fun l => if l =? 20 then Some (VSym (s2b "f")) else None) d (fun _ => VFalse) (VPtr 12) (fun _ => (None, [], [])).
Fixpoint xrun73 (d : data) (n : nat) (t : thr) : Raise.xout :=
  match n with
  | O => XNext t
  | S n' => match Raise.xstep no_prim 5 6 7 (say73 d) t with XNext t1 => xrun73 d n' t1 | o => o end
  end.
Definition top73 (e : expr) (t : option thr) (n : nat) : option Raise.xout :=
  match t, compile_top e with
  | Some t, Some c => Some (xrun73 (m_data (x_m t)) n (Thr (start c (fun _ => SNone) 0 0 [] (m_data (x_m t))) (x_handler t) (x_chandler t)))
  | _, _ => None
  end.
Definition ready73 : option thr :=
  match boot_data ex_sys50 (Data heap73 [] [] [] [[]]) with
  | Some d => done (top73 (EDefine [Id "f"] (ELam (Formals [idx] None) [EVar idx])) (done (top73 ex_c_install (Some (Thr (start (Code [] (AFix 0) []) (fun _ => SNone) 0 0 [] d) VFalse VFalse)) 100)) 100)
  | None => None
  end.
(** the first call of error, in that many steps, and what the process then prints *)
Fixpoint printed73 (n : nat) (o : option Raise.xout) (k : nat -> option Raise.xout) : option (list byte) :=
  match n with
  | O => None
  | S n' =>
      match o with
      | Some (XNext t) =>
          match m_cp (x_m t), frame_args (x_m t), m_pc (x_m t) with
          | RV (VPtr 15), Some (w :: g :: objs), O =>
              ex_printed (error ex_procs ex_disp ex_disp T73 w g objs (XS (RW (d_heap (m_data (x_m t))) (rw_tabs (xw ex_state))) (xps ex_state)))
          | _, _, _ => printed73 n' (k n) k
          end
      | _ => None
      end
  end.
Definition prints73 (e : expr) : option (list byte) := printed73 100 (top73 e ready73 0) (fun n => top73 e ready73 (101 - n)).
Definition below (e : expr) : expr := EBegin [EApp (ELam (Formals [idx] None) [e; EConst (VFix 1)]) [EConst (VFix 9)]; EConst (VFix 6)].

Example C73_example :
  prints73 (below (EVar (Id "nope"))) = Some (lines [s2b "error: cannot use before initialization"; s2b "  argument: nope"]) /\
  prints73 (below (EApp (EConst (VFix 7)) [])) = Some (lines [s2b "error: expected procedure"; s2b "  argument: 7"]) /\
  prints73 (below (EApp (EVar (Id "f")) [EConst (VFix 1); EConst (VFix 1); EConst (VFix 1)])) = Some (lines [s2b "f: arity mismatch"; s2b "  arguments...:"; s2b "   1"; s2b "   3"]) /\
  prints73 (below (EApp (EVar (Id "apply")) [EVar (Id "f"); EConst (VFix 7)])) = Some (lines [s2b "apply: type violation"; s2b "  arguments...:"; s2b "   list?"; s2b "   7"]) /\
  top73 (EVar (Id "nope")) ready73 100 = Some XShutdown /\
  shutdown_text (ex_disp heap73) (say73 no_data (ErrInit (Id "nope"))) [] = lines [s2b "Error: cannot use before initialization"; s2b " nope"].
Proof. repeat split; vm_compute; reflexivity. Qed.
(** The hypotheses of [C73_program_partial] are met, and so are those about the state that
    error is called in. *)
Definition base73 : store := boot_store ex_sys50 (Store heap73 [] [] []).
Definition s73 : store := snd (new_proc (PClo [c_handler] []) base73).
Example C73_program_met :
  exists c d s', compile_top ex_nope = Some c /\ wf false true ex_nope = true /\ drel s73 d /\ 0 < List.length (d_envs d) /\
    eval no_prim true [] s73 ex_nope (RErr (ErrInit (Id "nope"))) s' /\
    (forall c, prelude_in_place (Thr (start c (fun _ => SNone) 0 0 [] d) VFalse (VPtr 19)) s' (VPtr 15)) /\
    ready T73 (XS (RW (heap_of s') (rw_tabs (xw ex_state))) (xps ex_state)) /\ text (heap_of s') (VPtr 12) (s2b "list?") /\ list_at (heap_of s') (VPtr 13) [VFix 1].
Proof.
  assert (C : exists c, compile_top ex_nope = Some c) by (eexists; vm_compute; reflexivity). destruct C as [c C].
  assert (C1 : exists c, compile_top (ELam (fst c_handler) (snd c_handler)) = Some c) by (eexists; vm_compute; reflexivity). destruct C1 as [c1 C1].
  assert (B : exists d0, boot_data ex_sys50 (Data heap73 [] [] [] [[]]) = Some d0) by (eexists; vm_compute; reflexivity). destruct B as [d0 B].
  destruct (boot_rel ex_sys50 (Store heap73 [] [] []) (Data heap73 [] [] [] [[]]) d0) as [D0 N0]; [repeat constructor|discriminate|exact B|].
  assert (L0 : 0 < List.length (d_envs d0)) by (destruct (d_envs d0); [congruence|simpl; lia]).
  assert (EV : eval no_prim true [] base73 (ELam (fst c_handler) (snd c_handler)) (RVals [VPtr 19]) s73) by (constructor; reflexivity).
  destruct (top_run no_prim _ c1 _ d0 _ _ (fun _ => SNone) 0 0 [] C1 eq_refl EV D0 L0) as [m [r [_ [_ [_ [D G]]]]]].
  assert (EN : exists s', eval no_prim true [] s73 ex_nope (RErr (ErrInit (Id "nope"))) s' /\ procs_of s' = (20, PClo [(Formals [idx] None, [EVar (Id "nope")])] []) :: procs_of s73 /\ glob_of s' = glob_of s73 /\ heap_of s' = heap_of s73 ++ [COther 0]).
  { eexists. split; [|split; [|split]]; cycle 1. 4:{
      apply EvBegin. eapply EsErr. eapply EvApp; [constructor; constructor; reflexivity|eapply EaCons; [constructor; constructor|apply EaNil]|].
      eapply ApClo; [reflexivity|reflexivity|reflexivity|]. constructor. apply EvGlobalInit; [reflexivity|left; reflexivity]. }
    all: reflexivity. }
  destruct EN as [s' [EN [EP [EG EH]]]]. exists c, (m_data m), s'. split; [exact C|]. split; [reflexivity|]. split; [exact D|]. split; [destruct G; lia|].
  split; [exact EN|]. split; [|split; [|split]].
  - intros c0. unfold prelude_in_place. rewrite EP, EG. cbn [x_chandler]. split; [reflexivity|]. split; [exists (VPtr 16); split; reflexivity|]. split; [reflexivity|discriminate].
  - assert (ADD : forall q h, (forall r fs, ~ In (CRec r fs) q) -> good h /\ exn_types T73 h -> good (h ++ q) /\ exn_types T73 (h ++ q)).
    { induction q as [|x q IH]; intros h NR GX; [rewrite app_nil_r; auto|]. replace (h ++ x :: q) with ((h ++ [x]) ++ q) by (rewrite <- app_assoc; reflexivity). apply IH; [intros r' fs I; apply (NR r' fs); right; auto|].
      destruct GX as [G1 X1]. split; [apply good_snoc_other; auto; intros r' fs ->; apply (NR r' fs); left; auto|]. eapply types_kept; [apply rkept_snoc|auto]. }
    unfold ready, xh. cbn [xw rw_heap]. rewrite EH.
    assert (SP : exists q, heap_of s73 ++ [COther 0] = xh ex_state ++ q /\ forall r fs, ~ In (CRec r fs) q).
    { exists ([CStr (s2b "list?"); CPair (VFix 1) VNull] ++ repeat (COther 0) 7). split; [vm_compute; reflexivity|]. intros r0 fs I. simpl in I. repeat (destruct I as [I|I]; [discriminate|]). exact I. }
    destruct SP as [q [-> NR]]. apply ADD; auto. exact (proj1 C63_ex_ready).
  - rewrite EH. exists 12, (s2b "list?"). repeat split.
  - rewrite EH. econstructor; [reflexivity|]. constructor.
Qed.
Example C73_apart : forall p vs h, p = 5%N \/ p = 6%N \/ p = 7%N -> no_prim p vs h = None.
Proof. reflexivity. Qed.
Example C73_shows : forall h v b, text h v b -> ex_disp h v = b.
Proof. intros h v b [l [c [-> [N <-]]]]. cbn. rewrite N. reflexivity. Qed.
Print Assumptions C73_error_to_exit.
Print Assumptions C73_error_ends.
Print Assumptions C73_no_value.
Print Assumptions C73_not_a_procedure.
Print Assumptions C73_arity.
Print Assumptions C73_results_partial.
Print Assumptions C73_apply_partial.
Print Assumptions C73_results_refuted.
Print Assumptions C73_program_partial.
Print Assumptions C73_apply_refuted.
