(** C77: which variables are reported as used before their initialisation. *)
From Coq Require Import ZArith NArith Bool Ascii String List Arith Lia.
From Verif Require Import Base Heap HeapM Ast Sem Vm Compile Opt OptRel OptSim OptProofs OptFun OptProg CompProofs CompThm SlotProofs Sim SimThm OptThm EvalRun InitProofs.
Import ListNotations.
Local Open Scope list_scope.

(** The store a program starts in: no closures and no local variables yet, and nothing
    is marked as uninitialised. *)
Record initial (s : store) : Prop := Initial {
  in_cells : cells_of s = [];
  in_procs : forall l cls r, proc_ref l (procs_of s) <> Some (PClo cls r);
  in_heap : ready_heap (heap_of s);
  in_glob : forall x v, glob_ref x (glob_of s) = Some v -> ready_val v }.

Lemma initial_ok late free s : initial s -> store_ok late free [] s.
Proof.
  intros [A B C D]. constructor; auto.
  - rewrite A. auto.
  - intros [|l] x H; discriminate.
  - intros l cls r H. exfalso. eapply B; eauto.
Qed.

Lemma program_ok prim late free : no_mark prim -> forall s es rs s1, meaning prim s es rs s1 -> forall W, store_ok late free W s ->
  Forall (fun e => code_ok late free [] e) es -> Forall (fun x => res_ok late free x s1) (filter (fun x => match x with RErr _ => true | _ => false end) rs).
Proof.
  intros NM. induction 1 as [s|s e es vs s1 rs s2 E M IH|s e es y s1 E]; intros W S0 F; simpl; auto.
  - inversion F; subst. destruct (proj1 (init_all prim NM late free) _ _ _ _ _ _ E W S0) as (W1 & S1 & _ & _); auto; [intros x l; discriminate|eauto].
  - inversion F; subst. destruct (proj1 (init_all prim NM late free) _ _ _ _ _ _ E W S0) as (W1 & _ & _ & R); auto. intros x l; discriminate.
Qed.

Lemma ready_initial s : ready s -> initial s.
Proof.
  intros R. constructor.
  - apply (rd_cells _ R).
  - intros l cls r H. destruct (rd_procs _ R _ _ H) as [_ N]. apply (N cls r). auto.
  - assert (V : forall n v, closed_val n v -> ready_val v) by (intros n [] H; simpl in H; try contradiction; discriminate).
    assert (VS : forall n vs, Forall (closed_val n) vs -> Forall ready_val vs) by (intros n vs H; eapply Forall_impl; [intros a Q; eapply V; exact Q|exact H]).
    eapply Forall_impl; [|apply (rd_heap _ R)]. intros [] H; simpl in *; intuition eauto.
  - intros x v H. apply (rd_glob _ R) in H. destruct v; simpl in H; try contradiction; discriminate.
Qed.

Lemma src_part n b p e : part_of p e -> src n b e = true -> src n b p = true.
Proof.
  intros H. induction H; simpl; intros S0; auto;
    repeat match goal with H : andb _ _ = true |- _ => apply andb_true_iff in H as [? ?] end; try discriminate; auto;
    repeat match goal with
      | H : forallb _ ?l = true, I : In ?x ?l |- _ => rewrite forallb_forall in H; specialize (H _ I); simpl in H
      | H : andb _ _ = true |- _ => apply andb_true_iff in H as [? ?] end; auto.
  - destruct H as [<-|[<-|[<-|[]]]]; auto.
  - destruct H as [<-|H]; auto. match goal with F : forallb _ _ = true |- _ => rewrite forallb_forall in F; auto end.
  - destruct H as [<-|[<-|[]]]; auto.
Qed.
Lemma src_no_mark n b e : src n b e = true -> no_mark_in e.
Proof. intros S0. split; intros P; apply (src_part n b _ _ P) in S0; discriminate. Qed.

(** ** The theorems *)

(** For every program: the variable named by a cannot-use-before-initialization error
    is bound by a letrec-values of the program that binds not only procedures, or it is
    read outside of all forms that bind it and is then no defined global variable.  It
    is never a parameter of a procedure, a variable of a let-values or a procedure of a
    letrec-values that binds only procedures. *)
Theorem C77_error_names :
  forall prim s es rs s1 x,
    no_mark prim -> initial s -> Forall no_mark_in es ->
    meaning prim s es rs s1 -> In (RErr (ErrInit x)) rs ->
    (exists e, In e es /\ bound_late x e) \/
    (exists e, In e es /\ reads_free x e) /\ glob_ref x (glob_of s1) = None.
Proof.
  intros prim s es rs s1 x NM IN NO M I.
  assert (H := program_ok prim (fun y => exists e, In e es /\ bound_late y e) (fun y => exists e, In e es /\ reads_free y e) NM
    s es rs s1 M [] (initial_ok _ _ _ IN)).
  assert (C : Forall (fun e => code_ok (fun y => exists e, In e es /\ bound_late y e) (fun y => exists e, In e es /\ reads_free y e) [] e) es).
  { rewrite Forall_forall in NO |- *. intros e J. split; [|split]; eauto. }
  specialize (H C). rewrite Forall_forall in H. apply (H (RErr (ErrInit x))). apply filter_In. auto.
Qed.

(** A program that reads no undefined variable, and whose letrec-values bind only
    procedures, never fails in this way. *)
Theorem C77_no_error :
  forall prim s es rs s1 x,
    no_mark prim -> initial s -> Forall no_mark_in es ->
    (forall y e, In e es -> ~ bound_late y e) ->
    (forall y e, In e es -> reads_free y e -> glob_ref y (glob_of s) <> None) ->
    meaning prim s es rs s1 -> ~ In (RErr (ErrInit x)) rs.
Proof.
  intros prim s es rs s1 x NM IN NO NL NF M I.
  destruct (C77_error_names prim s es rs s1 x NM IN NO M I) as [(e & J & H)|[(e & J & H) G]]; [eapply NL; eauto|].
  assert (K : kept s s1).
  { clear -M. induction M; auto using kept_refl; [eapply kept_trans; eauto|]; eapply (proj1 (kept_all prim)); eauto. }
  apply (K x); auto. eapply NF; eauto.
Qed.

(** The same of what the machine does with the optimised and compiled program. *)
Theorem C77_machine_partial :
  forall prim sys d0 es rs s1 f n es' n' stk vc vals rs2 d2 x,
    no_mark prim -> allocates prim -> address_free prim -> system sys -> boot_data sys no_data = Some d0 ->
    Forall (fun e => src n (List.length (heap_of (boot_store sys no_store))) e = true /\ topok e = true) es ->
    optimize_program f n es = Some (es', n') -> Forall (fun e => wf false true e = true) es' ->
    meaning prim (boot_store sys no_store) es rs s1 -> no_count rs ->
    execution prim (Thread stk vc vals d0) es' rs2 d2 -> In (RErr (ErrInit x)) rs2 ->
    (exists e, In e es /\ bound_late x e) \/
    (exists e, In e es /\ reads_free x e) /\ global_value (d_glob d2) x = VUnbound.
Proof.
  intros prim sys d0 es rs s1 f n es' n' stk vc vals rs2 d2 x NM AL AF SY B F O W M NC X I.
  destruct (C32_optimised_execution_partial prim sys d0 es rs s1 f n es' n' stk vc vals AL AF SY B F O W M NC) as (h & rs' & d' & _ & _ & RR & _ & GG & U).
  destruct (U _ _ X) as [-> ->].
  assert (I0 : In (RErr (ErrInit x)) rs).
  { clear -RR I. induction RR as [|a b l l' R _ IH]; [destruct I|]. destruct I as [E|I]; [|right; auto]. left. subst b. destruct a as [|y]; simpl in R; [contradiction|].
    destruct y; simpl in R; try contradiction. congruence. }
  assert (NO : Forall no_mark_in es).
  { rewrite Forall_forall in F |- *. intros e J. apply F in J as [J _]. eapply src_no_mark; eauto. }
  destruct (C77_error_names prim _ es rs s1 x NM (ready_initial _ (boot_ready _ SY)) NO M I0) as [H|[H G]]; auto. right. split; auto.
  specialize (GG x). unfold global_value at 1 in GG. rewrite G in GG. apply GG.
Qed.

(** A program whose forms read only variables defined before it starts or by an earlier
    form never fails in this way. *)
Definition defines (x : ident) (e : expr) : Prop := exists ids rhs, e = EDefine ids rhs /\ In x ids.
Fixpoint in_order (known : ident -> Prop) (es : list expr) : Prop :=
  match es with
  | [] => True
  | e :: r => (forall x, reads_free x e -> known x) /\ in_order (fun x => known x \/ defines x e) r
  end.

Lemma set_globs_def xs : forall vs s x, List.length vs = List.length xs -> In x xs -> glob_ref x (glob_of (set_globs xs vs s)) <> None.
Proof.
  induction xs as [|y xs IH]; intros [|v vs] s x L I; simpl in *; try discriminate; try tauto. injection L as L. destruct I as [->|I]; [|auto].
  apply (kept_sets xs vs (set_glob x v s)). simpl. rewrite glob_set_ref, ident_eqb_refl. discriminate.
Qed.
Lemma error_split prim s es rs s1 y : meaning prim s es rs s1 -> In (RErr y) rs ->
  exists pre e post, es = pre ++ e :: post /\ meaning prim s (pre ++ [e]) rs s1 /\
    forall x d, In d pre -> defines x d -> glob_ref x (glob_of s1) <> None.
Proof.
  induction 1 as [s|s e es vs s1 rs s2 E M IH|s e es z s1 E]; intros I; [destruct I|destruct I as [I|I]; [discriminate|]|].
  - destruct (IH I) as (pre & e0 & post & -> & M0 & D). exists (e :: pre), e0, post. split; auto. split; [econstructor; eauto|].
    intros x d [<-|J] DE; [|eauto]. destruct DE as (ids & rhs & -> & J). inversion E; subst.
    assert (K : kept (set_globs ids vs0 s3) s2).
    { clear -M. induction M; auto using kept_refl; [eapply kept_trans; eauto|]; eapply (proj1 (kept_all prim)); eauto. }
    apply K. apply set_globs_def; auto.
  - exists [], e, es. split; auto. split; [constructor; auto|]. intros x d [].
Qed.
Lemma order_known es : forall known, in_order known es -> forall pre e post, es = pre ++ e :: post -> forall e0 x, In e0 (pre ++ [e]) -> reads_free x e0 ->
  known x \/ exists d, In d pre /\ defines x d.
Proof.
  induction es as [|e1 es IH]; intros known O pre e post Q e0 x I R; [destruct pre; discriminate|]. destruct O as [O1 O2].
  destruct pre as [|p pre]; simpl in Q; injection Q as <- ->.
  - destruct I as [<-|[]]. auto.
  - destruct I as [<-|I]; auto. destruct (IH _ O2 pre e post eq_refl e0 x I R) as [[H|H]|(d & J & H)]; auto; right; [exists e1|exists d]; simpl; auto.
Qed.
Theorem C77_in_order :
  forall prim s es rs s1 x,
    no_mark prim -> initial s -> Forall no_mark_in es ->
    (forall y e, In e es -> ~ bound_late y e) ->
    in_order (fun y => glob_ref y (glob_of s) <> None) es ->
    meaning prim s es rs s1 -> ~ In (RErr (ErrInit x)) rs.
Proof.
  intros prim s es rs s1 x NM IN NO NL OR M I. destruct (error_split _ _ _ _ _ _ M I) as (pre & e & post & -> & M0 & D).
  assert (SUB : forall e0, In e0 (pre ++ [e]) -> In e0 (pre ++ e :: post)).
  { intros e0 J. apply in_app_iff in J. apply in_app_iff. destruct J as [J|[<-|[]]]; simpl; auto. }
  destruct (C77_error_names prim s (pre ++ [e]) rs s1 x NM IN) as [(e0 & J & H)|[(e0 & J & H) G]]; auto.
  - rewrite Forall_forall in NO |- *. auto.
  - eapply NL; eauto.
  - destruct (order_known _ _ OR _ _ _ eq_refl _ _ J H) as [K|(d & J2 & K)]; [|eapply D; eauto].
    assert (KE : kept s s1).
    { clear -M0. induction M0; auto using kept_refl; [eapply kept_trans; eauto|]; eapply (proj1 (kept_all prim)); eauto. }
    apply (KE x); auto.
Qed.

(** ** A check of programs *)
Definition minus (l xs : list ident) : list ident := filter (fun x => negb (memb x xs)) l.
Fixpoint fv (e : expr) : list ident :=
  match e with
  | EConst _ | EUnbound => []
  | EVar x => [x]
  | EDefine _ e | ESet _ e => fv e
  | ELam fm b => minus (flat_map fv b) (params fm)
  | ECase cls => flat_map (fun c => minus (flat_map fv (snd c)) (params (fst c))) cls
  | EBegin es | EValues es | EMvValues es => flat_map fv es
  | EIf a b c => fv a ++ fv b ++ fv c
  | EApp f es => fv f ++ flat_map fv es
  | ELet bs b => flat_map (fun p => fv (snd p)) bs ++ minus (flat_map fv b) (bound_by bs)
  | ELetrec bs b => minus (flat_map (fun p => fv (snd p)) bs ++ flat_map fv b) (bound_by bs)
  | ECwv a b | EMvCall a b => fv a ++ fv b
  | EMvLet a fm b => fv a ++ minus (fv b) (params fm)
  end.
Definition procb (e : expr) : bool := match e with ELam _ _ => true | ECase (_ :: _) => true | _ => false end.
Fixpoint late_ids (e : expr) : list ident :=
  match e with
  | EConst _ | EUnbound | EVar _ => []
  | EDefine _ e | ESet _ e => late_ids e
  | ELam _ b => flat_map late_ids b
  | ECase cls => flat_map (fun c => flat_map late_ids (snd c)) cls
  | EBegin es | EValues es | EMvValues es => flat_map late_ids es
  | EIf a b c => late_ids a ++ late_ids b ++ late_ids c
  | EApp f es => late_ids f ++ flat_map late_ids es
  | ELet bs b => flat_map (fun p => late_ids (snd p)) bs ++ flat_map late_ids b
  | ELetrec bs b =>
      (if forallb (fun p => Nat.eqb (List.length (fst p)) 1 && procb (snd p)) bs then [] else bound_by bs) ++
      flat_map (fun p => late_ids (snd p)) bs ++ flat_map late_ids b
  | ECwv a b | EMvCall a b => late_ids a ++ late_ids b
  | EMvLet a _ b => late_ids a ++ late_ids b
  end.
Lemma in_minus x l xs : In x l -> ~ In x xs -> In x (minus l xs).
Proof. intros I N. apply filter_In. split; auto. apply negb_true_iff. apply memb_false. auto. Qed.
Lemma fv_sound x e : reads_free x e -> In x (fv e).
Proof.
  induction 1; simpl; rewrite ?in_app_iff; auto; try (apply in_minus; auto); rewrite ?in_app_iff;
    try (apply in_flat_map; eexists; split; eauto; fail).
  - apply in_flat_map. exists (fm, body). split; auto. apply in_minus; auto. apply in_flat_map. eauto.
  - destruct H as [<-|[<-|[<-|[]]]]; auto.
  - destruct H as [<-|H]; auto. right. apply in_flat_map. eauto.
  - left. apply in_flat_map. exists (ids, e). auto.
  - right. apply in_minus; auto. apply in_flat_map. eauto.
  - left. apply in_flat_map. exists (ids, e). auto.
  - right. apply in_flat_map. eauto.
  - destruct H as [<-|[<-|[]]]; auto.
  - destruct H as [<-|[<-|[]]]; auto.
  - right. apply in_minus; auto.
Qed.
Lemma late_sound x p e : part_of p e -> In x (late_ids p) -> In x (late_ids e).
Proof.
  induction 1; simpl; intros I; rewrite ?in_app_iff; auto; try (apply in_flat_map; eexists; split; eauto; fail).
  - apply in_flat_map. exists (fm, body). split; auto. apply in_flat_map. eauto.
  - destruct H as [<-|[<-|[<-|[]]]]; auto.
  - destruct H as [<-|H]; auto. right. apply in_flat_map. eauto.
  - left. apply in_flat_map. exists (ids, e). auto.
  - right. apply in_flat_map. eauto.
  - right. left. apply in_flat_map. exists (ids, e). auto.
  - right. right. apply in_flat_map. eauto.
  - destruct H as [<-|[<-|[]]]; auto.
  - destruct H as [<-|[<-|[]]]; auto.
  - destruct H as [<-|[<-|[]]]; auto.
Qed.
Lemma late_check x e : bound_late x e -> In x (late_ids e).
Proof.
  intros (bs & body & P & I & N). apply (late_sound x _ _ P). simpl. apply in_app_iff. left.
  destruct (forallb _ bs) eqn:F; auto. exfalso. apply N. apply Forall_forall. rewrite forallb_forall in F. intros b J. apply F in J.
  apply andb_true_iff in J as [J1 J2]. apply Nat.eqb_eq in J1. split; auto. destruct (snd b); try discriminate; simpl; auto. destruct cls; discriminate.
Qed.
Definition defs (e : expr) : list ident := match e with EDefine ids _ => ids | _ => [] end.
Fixpoint order_check (known : list ident) (es : list expr) : bool :=
  match es with
  | [] => true
  | e :: r => forallb (fun x => memb x known) (fv e) && order_check (known ++ defs e) r
  end.
Lemma order_sound es : forall known (K : ident -> Prop), (forall x, In x known -> K x) -> order_check known es = true -> in_order K es.
Proof.
  induction es as [|e es IH]; intros known K H C; simpl in *; auto. apply andb_true_iff in C as [C1 C2]. split.
  - intros x R. apply H. apply fv_sound in R. rewrite forallb_forall in C1. apply C1 in R. apply memb_In. auto.
  - eapply IH; [|eauto]. intros x I. apply in_app_iff in I as [I|I]; auto. right. destruct e; try destruct I; simpl in I; eexists; eexists; eauto.
Qed.

(** ** Examples *)
Example o_prim_no_mark : no_mark o_prim.
Proof.
  intros p vs h q RV RH E. unfold o_prim in E.
  destruct p as [|[[]|[]|]]; destruct vs as [|v [|w [|]]]; try discriminate;
    repeat match goal with H : context [match ?x with _ => _ end] |- _ => destruct x eqn:?; try discriminate end;
    injection E as <-; simpl; auto; try (split; [intro; discriminate|auto; fail]).
  - split; auto. destruct v; simpl in Heqo; try discriminate. destruct (nth_error h l) as [[]|] eqn:N; try discriminate. injection Heqo as -> ->.
    unfold ready_heap in RH. rewrite Forall_forall in RH. apply nth_error_In in N. apply (RH _ N).
  - inversion RV; subst. match goal with H : Forall ready_val [_] |- _ => inversion H; subst end. split; [discriminate|]. apply Forall_app. split; auto. repeat constructor; auto.
Qed.
(** The program of C32, without its last form: definitions, recursive procedures, local
    variables. *)
Definition q_program : list expr := removelast o_program.
Example C77_no_error_met :
  initial o_store /\ Forall no_mark_in q_program /\ (forall y e, In e q_program -> ~ bound_late y e) /\
  in_order (fun y => glob_ref y (glob_of o_store) <> None) q_program /\
  exists rs s1, meaning o_prim o_store q_program rs s1 /\ List.length rs = 5.
Proof.
  destruct C32_program_conditions as (SY & SR & _).
  assert (Q : forall e, In e q_program -> In e o_program) by (intros e I; unfold q_program in I; simpl in *; tauto).
  split; [apply ready_initial, boot_ready; auto|]. split.
  { apply Forall_forall. intros e I. rewrite Forall_forall in SR. destruct (SR e (Q e I)) as [S1 _]. eapply src_no_mark; eauto. }
  split.
  { intros y e I B. apply late_check in B. cbn in I. repeat destruct I as [<-|I]; try destruct I; vm_compute in B; auto. }
  split.
  { apply (order_sound _ [Id "add"; Id "cons"; Id "car"; values_id]); [|vm_compute; reflexivity].
    intros x I. cbn in I. repeat destruct I as [<-|I]; try destruct I; vm_compute; discriminate. }
  eexists. eexists. split; [eapply (run_prog_ok o_prim 100); vm_compute; reflexivity|reflexivity].
Qed.
(** Both kinds of errors occur:
    (letrec-values ([(a) (lambda () b)] [(b) (a)]) b) and (define-values (f) (lambda () y)) (f) *)
Example C77_late_error :
  exists s1, meaning o_prim o_store [ELetrec [([ida], lam [] [EVar idb]); ([idb], EApp (EVar ida) [])] [EVar idb]] [RErr (ErrInit idb)] s1.
Proof. eexists. eapply (run_prog_ok o_prim 100). vm_compute. reflexivity. Qed.
Example C77_free_error :
  exists s1, meaning o_prim o_store [EDefine [idf] (lam [] [EVar idy]); EApp (EVar idf) []; EDefine [idy] (num 1)] [RVals [VVoid]; RErr (ErrInit idy)] s1.
Proof. eexists. eapply (run_prog_ok o_prim 100). vm_compute. reflexivity. Qed.

(** ** Procedures of the library that read variables nobody defines *)

(** write-char, src/core/s/prelude.min:2015-2027; [t1] and [t2] are the strings. *)
Definition call (f : string) (es : list expr) : expr := EApp (EVar (Id f)) es.
Definition v (x : string) : expr := EVar (Id x).
Definition quoted (s : string) : expr := EConst (VSym (s2b s)).
Definition write_char_def (t1 t2 : val) : expr :=
  EDefine [Id "write-char"] (ECase
    [(Formals [Id "c"] None,
      [EIf (call "char?" [v "c"]) (call "$write-char" [v "c"; call "current-output-port" []])
         (call "raise-argument-error" [quoted "write-char"; EConst t1; v "c"])]);
     (Formals [Id "c"; Id "p"] None,
      [EIf (call "char?" [v "c"])
         (EIf (call "output-port?" [v "p"]) (call "$write-char" [v "c"; v "p"])
            (call "raise-argument-error" [quoted "write-char"; EConst t2; v "p"]))
         (call "raise-argument-error" [quoted "write-char"; EConst t1; v "c"])])]).
(** make-string, prelude.min:808-823, and non-negative-integer?, prelude.min:563-564. *)
Definition nonneg_def : expr :=
  EDefine [Id "non-negative-integer?"] (lam [Id "x"] [EIf (call "integer?" [v "x"]) (call ">=" [v "x"; num 0]) (EConst VFalse)]).
Definition make_string_def (t1 t2 : val) : expr :=
  EDefine [Id "make-string"] (ELet
    [([Id "check-args!"], lam [Id "n"; Id "c"]
       [EIf (call "non-negative-integer?" [v "n"])
          (EIf (call "char?" [v "c"]) (call "void" []) (call "raise-argument-error" [quoted "make-string"; EConst t1; v "init"]))
          (call "raise-argument-error" [quoted "make-string"; EConst t2; v "len"])])]
    [ECase
      [(Formals [Id "n"] None,
        [call "check-args!" [v "n"; EConst (VChar "a")]; call "$make-string" [v "n"; EConst (VChar "a")]]);
       (Formals [Id "n"; Id "fill"] None,
        [call "check-args!" [v "n"; v "fill"]; call "$make-string" [v "n"; v "fill"]])]]).
(** [f] is bound to a primitive of one argument that answers [a] for the value [w]. *)
Definition answers (prim : N -> list val -> heap -> option presult) (s : store) (f : string) (w a : val) : Prop :=
  exists l p, glob_ref (Id f) (glob_of s) = Some (VPtr l) /\ l < List.length (heap_of s) /\ proc_ref l (procs_of s) = Some (PPrim p 1) /\
    forall h, prim p [w] h = Some (PrimVal a h).

(** write-char never writes: for every character it reports the variable $write-char. *)
Theorem C77_write_char_refuted :
  forall prim s c t1 t2,
    ready_val c -> answers prim s "char?" c VTrue -> glob_ref (Id "$write-char") (glob_of s) = None ->
    exists s1, meaning prim s [write_char_def t1 t2; call "write-char" [EConst c]] [RVals [VVoid]; RErr (ErrInit (Id "$write-char"))] s1.
Proof.
  intros prim s c t1 t2 RC (l & p & G & L & P & A) N. eexists. eapply MnVal.
  { eapply (EvDefine _ _ _ _ _ _ [_]); [eapply EvCase; [discriminate|reflexivity]|reflexivity]. }
  apply MnErr. simpl set_globs. eapply EvApp.
  - apply E1Val. eapply EvGlobal; [reflexivity|simpl; rewrite glob_set_ref; reflexivity|discriminate].
  - eapply EaCons; [apply E1Val, EvConst|apply EaNil].
  - eapply ApClo; [simpl; rewrite Nat.eqb_refl; reflexivity|reflexivity|reflexivity|]. apply EsLast. eapply EvIfTrue; [| |].
    + eapply EvApp.
      * apply E1Val. eapply EvGlobal; [reflexivity|simpl; rewrite glob_set_ref; exact G|discriminate].
      * eapply EaCons; [|apply EaNil]. apply E1Val. eapply EvLocal; [reflexivity|simpl; rewrite nth_error_app2 by lia; rewrite Nat.sub_diag; reflexivity|exact RC].
      * eapply ApPrim; [simpl; destruct (Nat.eqb_spec (List.length (heap_of s)) l); [lia|exact P]|simpl; lia|apply A].
    + discriminate.
    + apply EvAppErrF. apply E1Err. apply EvGlobalInit; [reflexivity|]. left. simpl. rewrite glob_set_ref. exact N.
Qed.

(** make-string, given something that is no integer, reports the variable len. *)
Theorem C77_make_string_refuted :
  forall prim s w t1 t2 g,
    ready_val w -> answers prim s "integer?" w VFalse -> glob_ref (Id "raise-argument-error") (glob_of s) = Some g -> ready_val g ->
    glob_ref (Id "len") (glob_of s) = None ->
    exists s1, meaning prim s [nonneg_def; make_string_def t1 t2; call "make-string" [EConst w]]
      [RVals [VVoid]; RVals [VVoid]; RErr (ErrInit (Id "len"))] s1.
Proof.
  intros prim s w t1 t2 g RC (l & p & G & L & P & A) RG RR N. set (n := List.length (heap_of s)). set (k := List.length (cells_of s)).
  (* The store after the definitions. *)
  set (body := [EIf (call "non-negative-integer?" [v "n"])
          (EIf (call "char?" [v "c"]) (call "void" []) (call "raise-argument-error" [quoted "make-string"; EConst t1; v "init"]))
          (call "raise-argument-error" [quoted "make-string"; EConst t2; v "len"])]).
  set (cls := [(Formals [Id "n"] None,
        [call "check-args!" [v "n"; EConst (VChar "a")]; call "$make-string" [v "n"; EConst (VChar "a")]]);
       (Formals [Id "n"; Id "fill"] None,
        [call "check-args!" [v "n"; v "fill"]; call "$make-string" [v "n"; v "fill"]])]).
  set (gs := glob_set (Id "make-string") (VPtr (S (S n))) (glob_set (Id "non-negative-integer?") (VPtr n) (glob_of s))).
  set (h := ((heap_of s ++ [COther 0]) ++ [COther 0]) ++ [COther 0]).
  set (ps := (S (S n), PClo cls [(Id "check-args!", k)]) :: (S n, PClo [(Formals [Id "n"; Id "c"] None, body)] []) ::
             (n, PClo [(Formals [Id "x"] None, [EIf (call "integer?" [v "x"]) (call ">=" [v "x"; num 0]) (EConst VFalse)])] []) :: procs_of s).
  set (cs := cells_of s ++ [VPtr (S n)]).
  assert (L1 : List.length (heap_of s ++ [COther 0]) = S n) by (rewrite app_length; simpl; unfold n; lia).
  assert (L2 : List.length ((heap_of s ++ [COther 0]) ++ [COther 0]) = S (S n)) by (rewrite app_length, L1; simpl; lia).
  assert (GR : forall x, glob_ref x gs = if ident_eqb (Id "make-string") x then Some (VPtr (S (S n))) else if ident_eqb (Id "non-negative-integer?") x then Some (VPtr n) else glob_ref x (glob_of s)).
  { intros x. unfold gs. rewrite !glob_set_ref. reflexivity. }
  assert (LC : List.length cs = S k) by (unfold cs; rewrite app_length; simpl; unfold k; lia).
  assert (C0 : nth_error cs k = Some (VPtr (S n))) by (unfold cs; rewrite nth_error_app2 by (unfold k; lia); unfold k; rewrite Nat.sub_diag; reflexivity).
  assert (ND : forall d, proc_ref d ps = if S (S n) =? d then Some (PClo cls [(Id "check-args!", k)]) else
     if S n =? d then Some (PClo [(Formals [Id "n"; Id "c"] None, body)] []) else
     if n =? d then Some (PClo [(Formals [Id "x"] None, [EIf (call "integer?" [v "x"]) (call ">=" [v "x"; num 0]) (EConst VFalse)])] []) else proc_ref d (procs_of s)) by reflexivity.
  exists (Store h ps (((cs ++ [w]) ++ [w; VChar "a"]) ++ [w]) gs).
  eapply (MnVal prim _ _ _ _ (Store (heap_of s ++ [COther 0]) ((n, PClo [(Formals [Id "x"] None, [EIf (call "integer?" [v "x"]) (call ">=" [v "x"; num 0]) (EConst VFalse)])] []) :: procs_of s) (cells_of s) (glob_set (Id "non-negative-integer?") (VPtr n) (glob_of s)))).
  { unfold nonneg_def. 
    eapply (EvDefine prim true [] s [Id "non-negative-integer?"] _ [VPtr n]
      (Store (heap_of s ++ [COther 0]) ((n, PClo [(Formals [Id "x"] None, [EIf (call "integer?" [v "x"]) (call ">=" [v "x"; num 0]) (EConst VFalse)])] []) :: procs_of s) (cells_of s) (glob_of s))); [eapply EvLam; reflexivity|reflexivity]. }
  eapply (MnVal prim _ _ _ _ (Store h ps cs gs)).
  { unfold make_string_def.
    eapply (EvDefine _ _ _ _ [Id "make-string"] _ [VPtr (S (S n))] (Store h ps cs (glob_set (Id "non-negative-integer?") (VPtr n) (glob_of s)))); [|reflexivity].
    eapply (EvLet _ _ _ _ _ _ [VPtr (S n)] (Store ((heap_of s ++ [COther 0]) ++ [COther 0]) (tl ps) (cells_of s) (glob_set (Id "non-negative-integer?") (VPtr n) (glob_of s)))).
    - change [VPtr (S n)] with ([VPtr (S n)] ++ []). eapply EbCons; [|reflexivity|apply EbNil]. eapply EvLam. unfold new_proc. cbn [heap_of]. rewrite L1. reflexivity.
    - apply EsLast. cbn [add_cells heap_of procs_of cells_of glob_of map fst List.concat app bind_env]. eapply EvCase; [discriminate|]. unfold new_proc, add_cells, h, ps, cs. cbn [heap_of procs_of cells_of glob_of]. rewrite L2. reflexivity. }
  apply MnErr. eapply EvApp.
  - apply E1Val. eapply EvGlobal; [reflexivity|cbn [glob_of]; rewrite GR; reflexivity|discriminate].
  - eapply EaCons; [apply E1Val, EvConst|apply EaNil].
  - eapply (ApClo prim _ _ _ cls [(Id "check-args!", k)] (Formals [Id "n"] None) _ [(Id "n", S k); (Id "check-args!", k)] (Store h ps (cs ++ [w]) gs)).
    + cbn [proc_at procs_of]. rewrite ND, Nat.eqb_refl. reflexivity.
    + reflexivity.
    + unfold bind_clause. cbn [req rest cells_of heap_of procs_of glob_of List.length bind_env]. rewrite LC. reflexivity.
    + apply EsErr. eapply EvApp.
      * apply E1Val. eapply EvLocal; [reflexivity|cbn [cells_of]; rewrite nth_error_app1 by lia; exact C0|discriminate].
      * eapply EaCons; [|eapply EaCons; [apply E1Val, EvConst|apply EaNil]]. apply E1Val.
        eapply EvLocal; [reflexivity|cbn [cells_of]; rewrite nth_error_app2 by lia; rewrite LC, Nat.sub_diag; reflexivity|exact RC].
      * eapply (ApClo prim _ _ _ [(Formals [Id "n"; Id "c"] None, body)] [] (Formals [Id "n"; Id "c"] None) body [(Id "c", S (S (S k))); (Id "n", S (S k))] (Store h ps ((cs ++ [w]) ++ [w; VChar "a"]) gs)).
        -- cbn [proc_at procs_of]. rewrite ND. destruct (Nat.eqb_spec (S (S n)) (S n)); [lia|]. rewrite Nat.eqb_refl. reflexivity.
        -- reflexivity.
        -- unfold bind_clause. cbn [req rest cells_of heap_of procs_of glob_of List.length bind_env]. rewrite app_length, LC. cbn [List.length]. rewrite Nat.add_1_r. reflexivity.
        -- unfold body. apply EsLast. assert (LD : List.length (cs ++ [w]) = S (S k)) by (rewrite app_length, LC; simpl; lia).
           assert (ME : List.length ((cs ++ [w]) ++ [w; VChar "a"]) = S (S (S (S k)))) by (rewrite app_length, LD; simpl; lia).
           eapply (EvIfFalse _ _ _ _ _ _ _ (Store h ps (((cs ++ [w]) ++ [w; VChar "a"]) ++ [w]) gs)).
           ++ eapply EvApp.
              ** apply E1Val. eapply EvGlobal; [reflexivity|cbn [glob_of]; rewrite GR; reflexivity|discriminate].
              ** eapply EaCons; [|apply EaNil]. apply E1Val.
                 eapply EvLocal; [reflexivity|cbn [cells_of]; rewrite nth_error_app2 by lia; rewrite LD, Nat.sub_diag; reflexivity|exact RC].
              ** eapply (ApClo prim _ _ _ _ _ _ _ [(Id "x", S (S (S (S k))))] (Store h ps (((cs ++ [w]) ++ [w; VChar "a"]) ++ [w]) gs)).
                 --- cbn [proc_at procs_of]. rewrite ND. destruct (Nat.eqb_spec (S (S n)) n); [lia|]. destruct (Nat.eqb_spec (S n) n); [lia|]. rewrite Nat.eqb_refl. reflexivity.
                 --- reflexivity.
                 --- unfold bind_clause. cbn [req rest cells_of heap_of procs_of glob_of List.length bind_env]. rewrite ME. reflexivity.
                 --- apply EsLast. eapply (EvIfFalse _ _ _ _ _ _ _ (Store h ps (((cs ++ [w]) ++ [w; VChar "a"]) ++ [w]) gs)); [|apply EvConst]. eapply EvApp.
                     +++ apply E1Val. eapply EvGlobal; [reflexivity|cbn [glob_of]; rewrite GR; exact G|discriminate].
                     +++ eapply EaCons; [|apply EaNil]. apply E1Val.
                         eapply EvLocal; [reflexivity|cbn [cells_of]; rewrite nth_error_app2 by lia; rewrite ME, Nat.sub_diag; reflexivity|exact RC].
                     +++ apply (ApPrim prim (Store h ps (((cs ++ [w]) ++ [w; VChar "a"]) ++ [w]) gs) (VPtr l) [w] p VFalse h); [|simpl; lia|apply A]. cbn [proc_at procs_of]. rewrite ND.
                         destruct (Nat.eqb_spec (S (S n)) l); [unfold n in *; lia|]. destruct (Nat.eqb_spec (S n) l); [unfold n in *; lia|].
                         destruct (Nat.eqb_spec n l); [unfold n in *; lia|]. exact P.
           ++ eapply EvAppErrA.
              ** apply E1Val. eapply EvGlobal; [reflexivity|cbn [glob_of]; rewrite GR; exact RG|exact RR].
              ** eapply EaErrRest; [apply E1Val, EvConst|]. eapply EaErrRest; [apply E1Val, EvConst|]. eapply EaErr. apply E1Err.
                 apply EvGlobalInit; [reflexivity|]. left. cbn [glob_of]. rewrite GR. exact N.
Qed.

(** A store in which both happen: [write-char] of a character, [make-string] of a symbol. *)
Definition r_prim : N -> list val -> heap -> option presult :=
  fun p vs h => match p, vs with
    | 0%N, [VChar _] => Some (PrimVal VTrue h)
    | 1%N, [VSym _] => Some (PrimVal VFalse h)
    | _, _ => None
    end.
Definition r_store : store := boot_store [(Id "char?", PPrim 0 1); (Id "integer?", PPrim 1 1); (Id "raise-argument-error", PRaise)] no_store.
Example C77_refuted_met :
  answers r_prim r_store "char?" (VChar "x") VTrue /\ answers r_prim r_store "integer?" (VSym (s2b "x")) VFalse /\
  glob_ref (Id "raise-argument-error") (glob_of r_store) = Some (VPtr 2) /\
  glob_ref (Id "$write-char") (glob_of r_store) = None /\ glob_ref (Id "len") (glob_of r_store) = None.
Proof.
  split; [exists 0, 0%N; repeat (split; auto); simpl; lia|]. split; [exists 1, 1%N; repeat (split; auto); simpl; lia|]. repeat split.
Qed.

Print Assumptions C77_error_names.
Print Assumptions C77_no_error.
Print Assumptions C77_machine_partial.
Print Assumptions C77_in_order.
Print Assumptions C77_write_char_refuted.
Print Assumptions C77_make_string_refuted.
