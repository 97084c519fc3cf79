(** The compiled code computes what expressions mean (C31); tail calls (C33),
    clause selection (C34), apply (C36) and multiple values (C37). *)
From Coq Require Import ZArith NArith Bool Ascii String List Arith Lia.
From Verif Require Import Base Heap HeapM Ast FreeVars Code CodeProofs Compile CompRel CompProofs SlotProofs CompThm Sem Vm Sim SimLemmas SimProofs TailProofs.
Import ListNotations.
Local Open Scope list_scope.

(** ** Runs of the machine *)
Section Runs.
  Variable prim : N -> list val -> heap -> option presult.

  Lemma reaches_split m m1 : reaches prim m m1 -> forall m2 o, reaches prim m m2 -> step prim m2 = o ->
    match o with Next _ => False | _ => True end -> reaches prim m1 m2.
  Proof.
    induction 1 as [m|m ma mb S1 R IH]; auto. intros m2 o R2 S2 O. inversion R2 as [|? mc ? S3 R3]; subst.
    - rewrite S1 in O. contradiction.
    - rewrite S1 in S3. injection S3 as <-. eauto.
  Qed.
  (** The machine is deterministic: a run has at most one outcome. *)
  Lemma ends_fun m o o' : ends prim m o -> ends prim m o' -> o = o'.
  Proof.
    intros [m1 [R1 [S1 O1]]] [m2 [R2 [S2 O2]]].
    assert (Q := reaches_split _ _ R1 _ _ R2 S2 O2). inversion Q as [|? mc ? S3 R3]; subst; auto.
    rewrite S3 in O1. contradiction.
  Qed.

  Fixpoint run (n : nat) (m : mst) : outcome :=
    match n with
    | O => Next m
    | S k => match step prim m with Next m1 => run k m1 | o => o end
    end.
  Lemma run_ends n : forall m o, run n m = o -> match o with Next _ => False | _ => True end -> ends prim m o.
  Proof.
    induction n as [|n IH]; intros m o H O; simpl in H; [subst; contradiction|].
    destruct (step prim m) as [m1| | | |] eqn:E.
    - destruct (IH _ _ H O) as [m2 [R X]]. exists m2. split; auto. econstructor; eauto.
    - exists m. split; [constructor|]. split; congruence || auto.
    - exists m. split; [constructor|]. split; congruence || auto.
    - exists m. split; [constructor|]. split; congruence || auto.
    - exists m. split; [constructor|]. split; congruence || auto.
  Qed.

  (** ** One top-level expression *)
  Lemma top_ctx e its s c stk env vc vals s0 d :
    comp e [] true (CSt 0 []) its s -> placed c (tmpls s) (top_items e its) -> drel s0 d -> env < List.length (d_envs d) ->
    exists m1, reaches prim (start c stk env vc vals d) m1 /\ placed (m_code m1) (tmpls s) (top_items e its) /\
      here (top_items e its) (m_pc m1) its /\ ctx true true [] (List.length (bound_vars e)) [] s0 m1 /\ m_sfp m1 = 0 /\ m_cc m1 = [] /\
      grows d (m_data m1).
  Proof.
    intros C PL R LE. set (m0 := start c stk env vc vals d).
    assert (EO : forall sl d', env_ok true [] [] sl d').
    { intros sl d'. split; [discriminate|]. intros _ x. split; reflexivity. }
    unfold top_items in *. destruct (bound_vars e) as [|b br] eqn:EB.
    - exists m0. split; [constructor|]. split; auto. split; [apply here_start|]. split; [|auto using grows_refl].
      apply nth_lt_some in LE. destruct LE as [sl N]. constructor; auto. exists sl. split; auto. simpl. split; auto. lia.
    - set (sl := repeat (@None cref) (List.length (b :: br))).
      assert (F : nth_error (instrs_of (m_code m0)) (m_pc m0) = Some (Ipush_env (List.length (b :: br)))).
      { eapply here_plain; [exact PL|exact (here_start _)|reflexivity]. }
      destruct (drel_envs _ d (d_envs d ++ [sl]) R) as [R' G]; [rewrite app_length; lia|].
      eexists. split; [eapply one; [exact F|cbn [exec]; reflexivity]|]. split; [exact PL|].
      split; [apply (here_ins _ 0 _ _ (here_start _))|]. split; [|auto].
      constructor; [|exact R'|auto]. exists sl. split; [simpl; apply nth_snoc_eq|]. split; [unfold sl; rewrite repeat_length; simpl; lia|auto].
  Qed.

  Lemma top_run e c s d x s' stk env vc vals :
    compile_top e = Some c -> wf false true e = true -> eval prim true [] s e x s' -> drel s d -> env < List.length (d_envs d) ->
    match x with
    | RVals vs => exists m r, ends prim (start c stk env vc vals d) (Done r m) /\ result_vals m = Some vs /\ r = m_r0 m /\ drel s' (m_data m) /\
                            grows d (m_data m)
    | RErr y => exists m, ends prim (start c stk env vc vals d) (Fail y m) /\ drel s' (m_data m)
    end.
  Proof.
    intros CT W EV R LE. destruct (top_inv _ _ CT) as [its [cs [P' [reloc [C [RR WC]]]]]].
    destruct (top_assembled _ _ _ C) as [AS RO].
    assert (PL : placed c (tmpls cs) (top_items e its)) by (eapply placed_of; eauto).
    destruct (top_ctx e its cs c stk env vc vals s d C PL R LE) as [m1 [R1 [PL1 [H1 [CX1 [SF [CC G1]]]]]]].
    assert (S := proj1 (simulation prim) _ _ _ _ _ _ EV).
    assert (D := S (tmpls cs) (top_items e its) [] true true _ _ _ m1 PL1 C (ex_intro _ [] eq_refl) H1 W (fun _ => eq_refl)
                   (closed_top _ _) CX1).
    destruct x as [vs|y]; simpl in D.
    - destruct D as [m' [B1 B2 B3 B4 B5 B6 B7 B8 B9]]. exists m', (m_r0 m'). split; [|split; [|split; [|split]]]; auto.
      + exists m'. split; [eapply reaches_trans; eauto|]. split; auto. rewrite (step_exec _ _ _ B2). simpl. rewrite B3, SF. reflexivity.
      + apply res_vals. auto.
      + eapply grows_trans; eauto.
    - destruct D as [m2 [m3 [B1 [B2 B3]]]]. exists m3. split; auto. exists m2. split; [eapply reaches_trans; eauto|]. auto.
  Qed.
End Runs.

(** ** C31: programs *)

(** The procedures the system provides, under their names. *)
Definition sys_code (p : sproc) : option code :=
  match p with
  | PClo _ _ => None
  | PPrim p n => prim_code p n
  | PValues => values_code
  | PApply => apply_code
  | PIdentity => identity_code
  | PVoid => void_code
  | PRaise => raise_code
  end.
Fixpoint boot_store (sys : list (ident * sproc)) (s : store) : store :=
  match sys with
  | [] => s
  | (x, p) :: r => let '(v, s1) := new_proc p s in boot_store r (set_glob x v s1)
  end.
Fixpoint boot_data (sys : list (ident * sproc)) (d : data) : option data :=
  match sys with
  | [] => Some d
  | (x, p) :: r =>
      match sys_code p with
      | None => None
      | Some c =>
          let l := List.length (d_heap d) in
          boot_data r (Data (d_heap d ++ [COther 0]) ((l, Clo c 0 []) :: d_clos d) (d_cells d) (glob_set x (VPtr l) (d_glob d)) (d_envs d))
      end
  end.
Definition no_store : store := Store [] [] [] [].
Definition no_data : data := Data [] [] [] [] [[]].

(** The meaning of a program: its expressions are evaluated in order, up to the
    first error; [rs] are the results. *)
Inductive meaning (prim : N -> list val -> heap -> option presult) : store -> list expr -> list res -> store -> Prop :=
| MnNil s : meaning prim s [] [] s
| MnVal s e es vs s1 rs s2 :
    eval prim true [] s e (RVals vs) s1 -> meaning prim s1 es rs s2 -> meaning prim s (e :: es) (RVals vs :: rs) s2
| MnErr s e es y s1 : eval prim true [] s e (RErr y) s1 -> meaning prim s (e :: es) [RErr y] s1.

(** What is left in the thread by earlier evaluations. *)
Record thread : Type := Thread { t_stk : nat -> slot; t_vc : nat; t_vals : list val; t_data : data }.
Definition left_by (m : mst) : thread := Thread (m_stk m) (m_vc m) (m_vals m) (m_data m).

(** Its execution: each expression is compiled and run by the machine. *)
Inductive execution (prim : N -> list val -> heap -> option presult) : thread -> list expr -> list res -> data -> Prop :=
| ExNil t : execution prim t [] [] (t_data t)
| ExVal t e es c r m vs rs d' :
    compile_top e = Some c -> ends prim (start c (t_stk t) 0 (t_vc t) (t_vals t) (t_data t)) (Done r m) ->
    result_vals m = Some vs -> execution prim (left_by m) es rs d' -> execution prim t (e :: es) (RVals vs :: rs) d'
| ExErr t e es c y m :
    compile_top e = Some c -> ends prim (start c (t_stk t) 0 (t_vc t) (t_vals t) (t_data t)) (Fail y m) ->
    execution prim t (e :: es) [RErr y] (m_data m).

Lemma execution_fun prim t es rs d : execution prim t es rs d -> forall rs' d', execution prim t es rs' d' -> rs = rs' /\ d = d'.
Proof.
  induction 1 as [t|t e es c r m vs rs d' C E V X IH|t e es c y m C E]; intros rs2 d2 Y.
  - inversion Y; auto.
  - inversion Y as [|? ? ? c2 r2 m2 vs2 rs3 ? C2 E2 V2 X2|? ? ? c2 y2 m2 C2 E2]; subst; rewrite C in C2; injection C2 as <-;
      assert (Q := ends_fun _ _ _ _ E E2); try discriminate. injection Q as -> ->. destruct (IH _ _ X2) as [-> ->].
    rewrite V in V2. injection V2 as ->. auto.
  - inversion Y as [|? ? ? c2 r2 m2 vs2 rs3 ? C2 E2 V2 X2|? ? ? c2 y2 m2 C2 E2]; subst; rewrite C in C2; injection C2 as <-;
      assert (Q := ends_fun _ _ _ _ E E2); try discriminate. injection Q as -> ->. auto.
Qed.

(** What a program can see of a global variable. *)
Definition global_value (g : globals) (x : ident) : val :=
  match glob_ref x g with Some v => v | None => VUnbound end.

Lemma boot_rel sys : forall s d d0, drel s d -> d_envs d <> [] -> boot_data sys d = Some d0 -> drel (boot_store sys s) d0 /\ d_envs d0 <> [].
Proof.
  induction sys as [|[x p] r IH]; intros s d d0 R NE B.
  - simpl in B. injection B as <-. auto.
  - cbn [boot_data] in B. destruct (sys_code p) as [c|] eqn:C; [|discriminate]. cbv zeta in B.
    eapply (IH _ (Data _ _ _ _ _)); [| |exact B]; [|exact NE].
    unfold new_proc, set_glob. cbn [heap_of procs_of cells_of glob_of]. rewrite (dr_heap _ _ R).
    set (d1 := Data _ _ _ _ _).
    assert (G : grows d d1).
    { constructor; simpl; auto. intros y Hy. rewrite glob_ref_set. destruct (ident_eqb x y); [discriminate|auto]. }
    constructor; simpl; auto.
    + apply R.
    + intros y. rewrite !glob_ref_set. destruct (ident_eqb x y); auto. apply (dr_glob _ _ R).
    + constructor.
      * split; auto. destruct p; simpl in *; auto. discriminate.
      * eapply procs_grows; [exact G|]. apply R.
Qed.

Theorem C31_programs_partial :
  forall prim sys d0 es rs s' stk vc vals,
    boot_data sys no_data = Some d0 ->
    Forall (fun e => compilable e = true /\ wf false true e = true) es ->
    meaning prim (boot_store sys no_store) es rs s' ->
    exists d', execution prim (Thread stk vc vals d0) es rs d' /\
               d_heap d' = heap_of s' /\ forall x, global_value (d_glob d') x = global_value (glob_of s') x.
Proof.
  intros prim sys d0 es rs s' stk vc vals B F M.
  destruct (boot_rel sys no_store no_data d0) as [R NE]; auto; [repeat constructor|discriminate|].
  cut (exists d', execution prim (Thread stk vc vals d0) es rs d' /\ drel s' d').
  { intros [d' [X R']]. exists d'. split; auto. split; [symmetry; apply R'|]. intros x. assert (Q := dr_glob _ _ R' x).
    unfold global_value. destruct (glob_ref x (glob_of s')); [rewrite Q; auto|destruct Q as [-> | ->]; auto]. }
  clear B. revert stk vc vals d0 R NE. induction M as [s|s e es vs s1 rs s2 EV M IH|s e es y s1 EV]; intros stk vc vals d0 R NE.
  - exists d0. split; auto. apply (ExNil prim (Thread stk vc vals d0)).
  - inversion F as [|? ? [CP W] F']; subst. destruct (C28_compilation_succeeds e CP) as [c C].
    assert (T := top_run prim e c _ d0 _ _ stk 0 vc vals C W EV R).
    destruct T as [m [r [E [V [_ [R1 G]]]]]]; [destruct (d_envs d0); [contradiction|simpl; lia]|].
    destruct (IH F' (m_stk m) (m_vc m) (m_vals m) (m_data m) R1) as [d' [X R2]].
    { intros E0. assert (L := gr_envs _ _ G). rewrite E0 in L. destruct (d_envs d0); [contradiction|simpl in L; lia]. }
    exists d'. split; auto. eapply ExVal; eauto.
  - inversion F as [|? ? [CP W] F']; subst. destruct (C28_compilation_succeeds e CP) as [c C].
    assert (T := top_run prim e c _ d0 _ _ stk 0 vc vals C W EV R).
    destruct T as [m [E R1]]; [destruct (d_envs d0); [contradiction|simpl; lia]|].
    exists (m_data m). split; auto. eapply ExErr; eauto.
Qed.

(** The machine has no other behaviour. *)
Theorem C31_programs_unique_partial :
  forall prim sys d0 es rs s' stk vc vals rs' d',
    boot_data sys no_data = Some d0 ->
    Forall (fun e => compilable e = true /\ wf false true e = true) es ->
    meaning prim (boot_store sys no_store) es rs s' ->
    execution prim (Thread stk vc vals d0) es rs' d' ->
    rs' = rs /\ d_heap d' = heap_of s' /\ forall x, global_value (d_glob d') x = global_value (glob_of s') x.
Proof.
  intros prim sys d0 es rs s' stk vc vals rs' d' B F M X.
  destruct (C31_programs_partial prim sys d0 es rs s' stk vc vals B F M) as [d1 [Y H]].
  destruct (execution_fun _ _ _ _ _ X _ _ Y) as [-> ->]. auto.
Qed.

(** The restriction [wf] cannot be dropped.  An argument of a call in which
    mv-values occurs in tail position counts the arguments pushed so far among
    its values. *)
Definition no_prim : N -> list val -> heap -> option presult := fun _ _ _ => None.
Definition idf : ident := Id "f". Definition ida : ident := Id "a". Definition idb : ident := Id "b".
Definition idx : ident := Id "x". Definition idy : ident := Id "y". Definition idz : ident := Id "z".
Definition mv_prog : list expr :=
  [EDefine [idf] (ELam (Formals [ida; idb] None) [EVar idb]);
   EApp (EVar idf) [EConst (VFix 1);
     EMvLet (EMvLet (EConst (VFix 1)) (Formals [idz] None) (EMvValues [EVar idz; EConst (VFix 2)])) (Formals [idx; idy] None) (EVar idx)]].

Ltac runs := eapply run_ends with (n := 100); [vm_compute; reflexivity|exact I].
Ltac look := econstructor; [reflexivity|reflexivity|discriminate].

Theorem C31_values_in_argument_refuted :
  exists s', Forall (fun e => compilable e = true) mv_prog /\
    meaning no_prim no_store mv_prog [RVals [VVoid]; RVals [VFix 1]] s' /\
    forall stk vc vals rs d', execution no_prim (Thread stk vc vals no_data) mv_prog rs d' -> rs = [RVals [VVoid]; RErr (ErrResults 2 3)].
Proof.
  eexists. split; [repeat constructor|]. split.
  - econstructor.
    + unfold mv_prog. eapply (EvDefine no_prim true [] no_store [idf] _ [VPtr 0]); [constructor; reflexivity|reflexivity].
    + econstructor; [|constructor].
      eapply EvApp.
      * constructor. eapply EvGlobal; [reflexivity|reflexivity|discriminate].
      * eapply EaCons; [constructor; constructor|]. eapply EaCons; [|apply EaNil]. constructor.
        eapply (EvMvLet _ _ _ _ _ _ _ [VFix 1; VFix 2]); [|reflexivity|].
        { eapply (EvMvLet _ _ _ _ _ _ _ [VFix 1]); [constructor|reflexivity|]. constructor.
          eapply EaCons; [constructor; eapply EvLocal; [reflexivity|reflexivity|discriminate]|].
          eapply EaCons; [constructor; constructor|]. apply EaNil. }
        eapply EvLocal; [reflexivity|reflexivity|discriminate].
      * eapply ApClo; [reflexivity|reflexivity|reflexivity|]. constructor. eapply EvLocal; [reflexivity|reflexivity|discriminate].
  - intros stk vc vals rs d' X.
    assert (Y : exists d2, execution no_prim (Thread stk vc vals no_data) mv_prog [RVals [VVoid]; RErr (ErrResults 2 3)] d2).
    { eexists. eapply ExVal; [vm_compute; reflexivity|runs|reflexivity|]. eapply ExErr; [vm_compute; reflexivity|]. runs. }
    destruct Y as [d2 Y]. apply (execution_fun _ _ _ _ _ X _ _ Y).
Qed.

(** A definition inside of a procedure changes the global variable, but hides the
    local variable of that name from its own right-hand side, which reads the
    global one: the last expression yields 7, not the argument 1. *)
Definition def_prog : list expr :=
  [EDefine [idx] (EConst (VFix 7));
   EApp (ELam (Formals [idx] None) [EApp (ELam (Formals [] None) [EDefine [idx] (EVar idx)]) []]) [EConst (VFix 1)];
   EVar idx].
Theorem C31_inner_definition_refuted :
  exists s', Forall (fun e => compilable e = true) def_prog /\
    meaning no_prim no_store def_prog [RVals [VVoid]; RVals [VVoid]; RVals [VFix 1]] s' /\
    forall stk vc vals rs d', execution no_prim (Thread stk vc vals no_data) def_prog rs d' ->
      rs = [RVals [VVoid]; RVals [VVoid]; RVals [VFix 7]].
Proof.
  eexists. split; [repeat constructor|]. split.
  - econstructor; [|econstructor; [|econstructor; [|constructor]]].
    + eapply (EvDefine _ _ _ _ _ _ [VFix 7]); [constructor|reflexivity].
    + eapply EvApp; [constructor; constructor; reflexivity|eapply EaCons; [constructor; constructor|apply EaNil]|].
      eapply ApClo; [reflexivity|reflexivity|reflexivity|]. constructor.
      eapply EvApp; [constructor; constructor; reflexivity|apply EaNil|].
      eapply ApClo; [reflexivity|reflexivity|reflexivity|]. constructor.
      eapply (EvDefine _ _ _ _ _ _ [VFix 1]); [|reflexivity].
      eapply EvLocal; [reflexivity|reflexivity|discriminate].
    + eapply EvGlobal; [reflexivity|reflexivity|discriminate].
  - intros stk vc vals rs d' X.
    assert (Y : exists d2, execution no_prim (Thread stk vc vals no_data) def_prog [RVals [VVoid]; RVals [VVoid]; RVals [VFix 7]] d2).
    { eexists. eapply ExVal; [vm_compute; reflexivity|runs|reflexivity|].
      eapply ExVal; [vm_compute; reflexivity|runs|reflexivity|].
      eapply ExVal; [vm_compute; reflexivity|runs|reflexivity|]. constructor. }
    destruct Y as [d2 Y]. apply (execution_fun _ _ _ _ _ X _ _ Y).
Qed.

(** ** C33: tail calls *)

(** [tail_runs n m m']: the machine, at a call in state [m], comes to a call in
    state [m'] after [n] calls. *)
Inductive call_runs (prim : N -> list val -> heap -> option presult) : nat -> mst -> mst -> Prop :=
| CrNil m : call_runs prim 0 m m
| CrCons n m m1 m2 m3 m4 :
    do_application m = Next m1 -> reaches prim m1 m2 -> step prim m2 = do_application m3 -> call_runs prim n m3 m4 ->
    call_runs prim (S n) m m4.

(** A machine state at a call of [f] with arguments [vs] in store [s]. *)
Definition at_call (m : mst) (f : val) (vs : list val) (s : store) : Prop :=
  m_cp m = RV f /\ frame_args m = Some vs /\ drel s (m_data m).

Lemma tail_one prim m s f vs g ws s' : at_call m f vs s -> tstep prim s f vs g ws s' ->
  exists m1 m2 m3, do_application m = Next m1 /\ reaches prim m1 m2 /\ step prim m2 = do_application m3 /\
    at_call m3 g ws s' /\ m_cc m3 = m_cc m /\ m_sfp m3 = m_sfp m /\ (forall i, i <= m_sfp m -> m_stk m3 i = m_stk m i).
Proof.
  intros [CP [FA R]] T. inversion T as [? ? ? cls r fm body r1 s1 ? ? ? PA SEL BC TS|? ? ? mid l elems PA PG LA]; subst.
  - destruct (enter_clo prim m s f vs cls r fm body r1 s1 PA SEL BC CP FA R) as [m6 [T0 [P [sc1 [cs1 [its1 [cs2 EN]]]]]]].
    destruct (proj2 (tail_simulation prim) _ _ _ _ _ _ _ TS T0 P sc1 cs1 its1 cs2 m6 (en_placed _ _ _ _ _ _ _ _ _ _ _ _ _ EN)
                (en_body _ _ _ _ _ _ _ _ _ _ _ _ _ EN)) as [mA RD]; try apply EN.
    destruct (en_run _ _ _ _ _ _ _ _ _ _ _ _ _ EN) as [m1 [AP R1]].
    destruct RD as [B1 B2 B3 B4 B5 B6 B7 B8 [K1 K2 K3 K4]].
    exists m1, mA, mA. split; auto. split; [eapply reaches_trans; eauto|]. split; [rewrite (step_exec _ _ _ B2); reflexivity|].
    split; [split; [|split]; auto|]. rewrite B4, B3, (en_cc _ _ _ _ _ _ _ _ _ _ _ _ _ EN), (en_sfp _ _ _ _ _ _ _ _ _ _ _ _ _ EN). split; auto.
    split; auto. intros i L. rewrite K1 by (rewrite (en_sfp _ _ _ _ _ _ _ _ _ _ _ _ _ EN); auto).
    rewrite (en_stk _ _ _ _ _ _ _ _ _ _ _ _ _ EN). auto.
  - destruct (proc_found _ _ _ _ PA R) as [k [CA W]].
    assert (AR := apply_run prim m k _ W FA). rewrite two_args in AR. destruct AR as [R2 F2].
    set (m2 := counted (entered m k) 2) in *. assert (X := apply_exec prim m2 g mid l FA).
    assert (CG : clo_at (RV g) (m_data m2) <> None).
    { assert (Y := proc_rel_at s' (m_data m) g R). destruct (proc_at g (procs_of s')); [|contradiction]. destruct Y as [kg [Y _]].
      change (clo_at (RV g) (m_data m) <> None). rewrite Y. discriminate. }
    destruct (clo_at (RV g) (m_data m2)) as [kg|] eqn:EG; [|contradiction].
    change (d_heap (m_data m2)) with (d_heap (m_data m)) in X. rewrite <- (dr_heap _ _ R) in X. rewrite (read_list_list _ _ _ LA) in X.
    exists (entered m k), m2. eexists. split; [apply (enter_ok m f); auto|]. split; [exact R2|].
    split; [rewrite (step_exec _ m2 _ F2); exact X|]. split; [split; [reflexivity|split; [unfold frame_args; simpl; apply push_all_args|exact R]]|].
    split; [reflexivity|]. split; [reflexivity|]. intros i L. simpl. apply push_all_low. lia.
Qed.

Theorem C33_tail_calls_constant_continuation :
  forall prim n m s f vs g ws s',
    at_call m f vs s -> tchain prim n s f vs g ws s' ->
    exists m', call_runs prim n m m' /\ at_call m' g ws s' /\ m_cc m' = m_cc m /\ m_sfp m' = m_sfp m /\
               forall i, i <= m_sfp m -> m_stk m' i = m_stk m i.
Proof.
  intros prim n m s f vs g ws s' A C. revert m A. induction C as [s f vs|n s f vs g ws s1 h us s2 T C IH]; intros m A.
  - exists m. split; [constructor|]. auto.
  - destruct (tail_one prim m s f vs g ws s1 A T) as [m1 [m2 [m3 [AP [R [ST [A3 [CC [SF SK]]]]]]]]].
    destruct (IH m3 A3) as [m' [X [A' [CC' [SF' SK']]]]]. exists m'. split; [econstructor; eauto|].
    split; auto. split; [congruence|]. split; [congruence|]. intros i L. rewrite SK' by congruence. auto.
Qed.

(** From the start of a top-level expression: the continuation stays empty. *)
Theorem C33_top_level_loop :
  forall prim e c s d stk env vc vals f vs s1 n g ws s2,
    compile_top e = Some c -> wf false true e = true -> drel s d -> env < List.length (d_envs d) ->
    tcall prim true [] s e f vs s1 -> tchain prim n s1 f vs g ws s2 ->
    exists m0 m1 m2, reaches prim (start c stk env vc vals d) m0 /\ step prim m0 = do_application m1 /\ call_runs prim n m1 m2 /\
      at_call m2 g ws s2 /\ m_cc m2 = [] /\ m_sfp m2 = 0.
Proof.
  intros prim e c s d stk env vc vals f vs s1 n g ws s2 CT W R LE TC CH.
  destruct (top_inv _ _ CT) as [its [cs [P' [reloc [C [RR WC]]]]]]. destruct (top_assembled _ _ _ C) as [AS RO].
  assert (PL : placed c (tmpls cs) (top_items e its)) by (eapply placed_of; eauto).
  destruct (top_ctx prim e its cs c stk env vc vals s d C PL R LE) as [m1 [R1 [PL1 [H1 [CX1 [SF [CC G1]]]]]]].
  destruct (proj1 (tail_simulation prim) _ _ _ _ _ _ _ TC (tmpls cs) (top_items e its) [] _ _ _ m1 PL1 C (ex_intro _ [] eq_refl) H1 W
              (closed_top _ _) CX1) as [mA [B1 B2 B3 B4 B5 B6 B7 B8 B9]].
  destruct (C33_tail_calls_constant_continuation prim n mA s1 f vs g ws s2) as [m' [X [A' [C' [S' _]]]]]; auto.
  { split; auto. }
  exists mA, mA, m'. split; [eapply reaches_trans; eauto|]. split; [rewrite (step_exec _ _ _ B2); reflexivity|].
  split; auto. split; auto. split; congruence.
Qed.

(** A loop that never ends: (define-values (f) (lambda (x) (f x))).  It makes any
    number of tail calls. *)
Definition loop_clause : clause := (Formals [idx] None, [EApp (EVar idf) [EVar idx]]).
Definition loop_store (k : nat) : store :=
  Store [COther 0] [(0, PClo [loop_clause] [])] (repeat (VFix 3) k) [(idf, VPtr 0)].
Example loop_runs : forall n k, tchain no_prim n (loop_store k) (VPtr 0) [VFix 3] (VPtr 0) [VFix 3] (loop_store (k + n)).
Proof.
  induction n as [|n IH]; intros k; [rewrite Nat.add_0_r; constructor|].
  replace (k + S n) with (S k + n) by lia. econstructor; [|apply IH].
  assert (E : repeat (VFix 3) k ++ [VFix 3] = repeat (VFix 3) (S k)).
  { clear. induction k; simpl; [reflexivity|]. rewrite IHk. reflexivity. }
  eapply TsClo; [reflexivity|reflexivity|reflexivity|]. cbn [loop_store cells_of heap_of procs_of glob_of]. rewrite E, repeat_length.
  constructor. econstructor.
  - constructor. eapply EvGlobal; [reflexivity|reflexivity|discriminate].
  - eapply EaCons; [|apply EaNil]. constructor. eapply (EvLocal _ _ _ _ _ k); [reflexivity| |discriminate].
    cbn [cells_of]. rewrite <- E. rewrite nth_error_app2; rewrite repeat_length; [|lia]. rewrite Nat.sub_diag. reflexivity.
Qed.
(** The state the machine is in before the loop. *)
Example loop_reached :
  exists c r m, compile_top (EDefine [idf] (ELam (fst loop_clause) (snd loop_clause))) = Some c /\
    ends no_prim (start c (fun _ => SNone) 0 0 [] no_data) (Done r m) /\ drel (loop_store 0) (m_data m) /\
    wf false true (EApp (EVar idf) [EConst (VFix 3)]) = true /\
    tcall no_prim true [] (loop_store 0) (EApp (EVar idf) [EConst (VFix 3)]) (VPtr 0) [VFix 3] (loop_store 0).
Proof.
  assert (W : wf false true (EDefine [idf] (ELam (fst loop_clause) (snd loop_clause))) = true) by reflexivity.
  destruct (C28_compilation_succeeds _ (eq_refl : compilable (EDefine [idf] (ELam (fst loop_clause) (snd loop_clause))) = true)) as [c C].
  assert (EV : eval no_prim true [] no_store (EDefine [idf] (ELam (fst loop_clause) (snd loop_clause))) (RVals [VVoid]) (loop_store 0)).
  { apply (EvDefine no_prim true [] no_store [idf] _ [VPtr 0] (snd (new_proc (PClo [loop_clause] []) no_store))); [constructor; reflexivity|reflexivity]. }
  assert (D : drel no_store no_data) by (repeat constructor).
  destruct (top_run no_prim _ c _ no_data _ _ (fun _ => SNone) 0 0 [] C W EV D) as [m [r [E [_ [_ [R _]]]]]]; [simpl; lia|].
  exists c, r, m. split; auto. split; auto. split; auto. split; auto. econstructor.
  - constructor. eapply EvGlobal; [reflexivity|reflexivity|discriminate].
  - eapply EaCons; [constructor; constructor|apply EaNil].
Qed.

(** ** C34: clause selection *)

(** The clause takes [n] arguments. *)
Definition takes (fm : formals) (n : nat) : Prop :=
  match rest fm with None => n = List.length (req fm) | Some _ => List.length (req fm) <= n end.
Lemma takes_accepts fm n : takes fm n <-> accepts fm n = true.
Proof. unfold takes, accepts. destruct (rest fm); [rewrite Nat.leb_le|rewrite Nat.eqb_eq]; tauto. Qed.

(** The value of variable [x] in the frame of the machine, for code compiled with
    scope [sc]. *)
Definition var_value (sc : scope) (x : ident) (m : mst) : option val :=
  match scope_ref sc x with
  | Some i => match env_slot (m_data m) (m_env m) i with
              | Some c => match cell_val (m_data m) c with Some (_, v) => Some v | None => None end
              | None => None
              end
  | None => None
  end.
(** The machine is at the first instruction of the code of [body]. *)
Definition at_body (m : mst) (body : list expr) (sc : scope) : Prop :=
  exists T P cs its cs', placed (m_code m) T P /\ here P (m_pc m) its /\ cseq body sc true cs its cs'.

Lemma select_first pre fm body post n :
  (forall c, In c pre -> ~ takes (fst c) n) -> takes fm n -> select (pre ++ (fm, body) :: post) n = Some (fm, body).
Proof.
  induction pre as [|c r IH]; intros N T; simpl.
  - apply takes_accepts in T. rewrite T. auto.
  - destruct (accepts (fst c) n) eqn:A; [apply takes_accepts in A; destruct (N c); simpl; auto|]. apply IH; auto. intros. apply N. simpl. auto.
Qed.
Lemma select_none cls n : (forall c, In c cls -> ~ takes (fst c) n) -> select cls n = None.
Proof.
  induction cls as [|c r IH]; intros N; simpl; auto.
  destruct (accepts (fst c) n) eqn:A; [apply takes_accepts in A; destruct (N c); simpl; auto|]. apply IH. intros. apply N. simpl. auto.
Qed.
Lemma lookup_bind xs : forall base r x, ~ In x xs -> lookup_env x (bind_env xs base r) = lookup_env x r.
Proof.
  induction xs as [|y ys IH]; intros base r x N; simpl; auto. simpl in N. rewrite IH by tauto. simpl.
  destruct (ident_eqb_spec y x); auto. tauto.
Qed.
Lemma lookup_bind_nth xs : forall base r i x, NoDup xs -> nth_error xs i = Some x -> lookup_env x (bind_env xs base r) = Some (base + i).
Proof.
  induction xs as [|y ys IH]; intros base r [|i] x ND N; simpl in *; try discriminate; inversion ND; subst.
  - injection N as ->. rewrite lookup_bind by auto. simpl. rewrite ident_eqb_refl. f_equal. lia.
  - rewrite (IH (S base) _ i x) by auto. f_equal. lia.
Qed.
Lemma list_cells_at h xs : list_at (h ++ list_cells (List.length h) xs) (match xs with [] => VNull | _ => VPtr (List.length h) end) xs.
Proof.
  cut (forall base (t : heap), List.length t = base -> list_at (t ++ list_cells base xs) (match xs with [] => VNull | _ => VPtr base end) xs); [auto|].
  induction xs as [|x r IH]; intros base t L; [constructor|]. simpl. 
  econstructor.
  - rewrite nth_error_app2 by lia. rewrite L, Nat.sub_diag. reflexivity.
  - specialize (IH (S base) (t ++ [CPair x (match r with [] => VNull | _ => VPtr (S base) end)])). rewrite <- app_assoc in IH. simpl in IH.
    apply IH. rewrite app_length. simpl. lia.
Qed.

Theorem C34_clause_selected :
  forall prim m s f vs pre fm body post r,
    at_call m f vs s -> proc_at f (procs_of s) = Some (PClo (pre ++ (fm, body) :: post) r) ->
    (forall c, In c pre -> ~ takes (fst c) (List.length vs)) -> takes fm (List.length vs) -> NoDup (formals_ids fm) ->
    exists m1 m2 sc,
      do_application m = Next m1 /\ reaches prim m1 m2 /\ at_body m2 body sc /\
      m_sfp m2 = m_sfp m /\ m_cc m2 = m_cc m /\
      (forall i x, nth_error (req fm) i = Some x -> var_value sc x m2 = nth_error vs i) /\
      (forall x, rest fm = Some x -> exists l, var_value sc x m2 = Some l /\ list_at (d_heap (m_data m2)) l (skipn (List.length (req fm)) vs)).
Proof.
  intros prim m s f vs pre fm body post r [CP [FA R]] PA NP T ND.
  assert (SEL := select_first pre fm body post _ NP T).
  destruct (bind_clause fm vs r s) as [r1 s1] eqn:BC.
  destruct (enter_clo prim m s f vs _ r fm body r1 s1 PA SEL BC CP FA R) as [m6 [T0 [P [sc1 [cs1 [its1 [cs2 EN]]]]]]].
  destruct EN as [[m1 [E1 E1']] E2 E3 E4 E5 E6 E7 E8 E9 E10 E11 E12].
  exists m1, m6, sc1. split; auto. split; auto. split; [exists T0, P, cs1, its1, cs2; auto|]. split; auto. split; auto.
  assert (VV : forall x l, In x (formals_ids fm) -> lookup_env x r1 = Some l -> var_value sc1 x m6 = nth_error (cells_of s1) l).
  { intros x l I L. unfold var_value. destruct (scope_ref sc1 x) as [i|] eqn:SR; [|destruct (E9 x I SR)].
    destruct E8 as [[sl [N [_ [EO _]]]] RD _]. destruct (EO x i SR) as [cr [NS CR]]. unfold env_slot. rewrite N, NS.
    unfold cref_ok in CR. rewrite L in CR. destruct CR as [-> NC]. simpl. rewrite (dr_cells _ _ RD).
    rewrite nth_map in *. destruct (nth_error (d_cells (m_data m6)) l) as [[y v]|]; auto. }
  unfold formals_ids in *. unfold bind_clause in BC. destruct (rest fm) as [y|] eqn:ER.
  - assert (LR : List.length (req fm) <= List.length vs) by (unfold takes in T; rewrite ER in T; auto).
    assert (NDr : NoDup (req fm)) by (apply NoDup_remove_1 in ND; rewrite app_nil_r in ND; auto).
    assert (NY : ~ In y (req fm)) by (apply NoDup_remove_2 in ND; rewrite app_nil_r in ND; auto).
    unfold new_list in BC. injection BC as <- <-. split.
    + intros i x N. rewrite (VV x (List.length (cells_of s) + i)).
      * cbn [cells_of]. rewrite nth_error_app2 by lia. replace (_ + i - _) with i by lia.
        assert (Li : i < List.length (req fm)) by (apply nth_error_Some; congruence).
        rewrite nth_error_app1 by (rewrite firstn_length; lia). clear - Li LR.
        revert i Li vs LR. induction (req fm) as [|z zs IH]; intros [|i] Li [|v vs] LR; simpl in *; try lia; auto. apply IH; lia.
      * apply in_app_iff. left. eapply nth_error_In; eauto.
      * simpl. destruct (ident_eqb_spec y x) as [->|D]; [apply nth_error_In in N; contradiction|]. apply lookup_bind_nth; auto.
    + intros x [= ->]. exists (match skipn (List.length (req fm)) vs with [] => VNull | _ => VPtr (List.length (heap_of s)) end). split.
      * rewrite (VV x (List.length (cells_of s) + List.length (req fm))).
        -- cbn [cells_of]. rewrite nth_error_app2 by lia. replace (_ + _ - _) with (List.length (req fm)) by lia.
           rewrite nth_error_app2 by (rewrite firstn_length; lia). rewrite firstn_length, Nat.min_l, Nat.sub_diag by lia. reflexivity.
        -- apply in_app_iff. simpl. auto.
        -- simpl. rewrite ident_eqb_refl. reflexivity.
      * destruct E8 as [_ RD _]. rewrite <- (dr_heap _ _ RD). cbn [heap_of]. apply list_cells_at.
  - injection BC as <- <-. split; [|discriminate]. intros i x N. rewrite app_nil_r in *. rewrite (VV x (List.length (cells_of s) + i)).
    + cbn [cells_of]. rewrite nth_error_app2 by lia. f_equal. lia.
    + eapply nth_error_In; eauto.
    + apply lookup_bind_nth; auto.
Qed.

Theorem C34_arity_error :
  forall prim m s f vs cls r,
    at_call m f vs s -> proc_at f (procs_of s) = Some (PClo cls r) ->
    (forall c, In c cls -> ~ takes (fst c) (List.length vs)) ->
    exists m1 m2 m3, do_application m = Next m1 /\ reaches prim m1 m2 /\ step prim m2 = Fail (ErrArity f (List.length vs)) m3 /\ drel s (m_data m3).
Proof.
  intros prim m s f vs cls r [CP [FA R]] PA N. apply select_none in N.
  destruct (case_ap_clo_arity prim s f vs cls r PA N m CP FA R) as [m3 [D [F|[m1 [m2 X]]]]].
  - assert (Y := proc_rel_at s (m_data m) f R). rewrite PA in Y. destruct Y as [k [CA _]]. rewrite (enter_ok m f k CP CA) in F. discriminate.
  - exists m1, m2, m3. tauto.
Qed.

(** A procedure with two clauses and a call of the second. *)
Definition two_clauses : list clause := [(Formals [ida] None, [EVar ida]); (Formals [ida] (Some idb), [EVar idb])].
Example C34_second_clause :
  exists fm body pre post, two_clauses = pre ++ (fm, body) :: post /\ (forall c, In c pre -> ~ takes (fst c) 3) /\ takes fm 3 /\
    NoDup (formals_ids fm) /\ rest fm = Some idb.
Proof.
  exists (Formals [ida] (Some idb)), [EVar idb], [(Formals [ida] None, [EVar ida])], []. split; [reflexivity|]. split.
  - intros c [<-|[]]. unfold takes. simpl. lia.
  - split; [unfold takes; simpl; lia|]. split; [|reflexivity]. repeat constructor; simpl; intuition discriminate.
Qed.

(** ** C36: apply *)
Definition is_apply (m : mst) (f : val) : Prop :=
  exists k, clo_at (RV f) (m_data m) = Some k /\ apply_code = Some (c_code k).

Theorem C36_apply_spreads_partial :
  forall prim m f g mid l elems,
    m_cp m = RV f -> is_apply m f -> frame_args m = Some (g :: mid ++ [l]) ->
    clo_at (RV g) (m_data m) <> None -> list_at (d_heap (m_data m)) l elems ->
    exists m1 m2 m3, do_application m = Next m1 /\ reaches prim m1 m2 /\ step prim m2 = do_application m3 /\
      m_cp m3 = RV g /\ frame_args m3 = Some (mid ++ elems) /\ m_data m3 = m_data m /\ m_cc m3 = m_cc m /\ m_sfp m3 = m_sfp m /\
      forall i, i <= m_sfp m -> m_stk m3 i = m_stk m i.
Proof.
  intros prim m f g mid l elems CP [k [CA W]] FA CG LA.
  assert (AR := apply_run prim m k _ W FA). rewrite two_args in AR. destruct AR as [R2 F2].
  set (m2 := counted (entered m k) 2) in *. assert (X := apply_exec prim m2 g mid l FA).
  change (m_data m2) with (m_data m) in X. destruct (clo_at (RV g) (m_data m)) as [kg|]; [|contradiction].
  rewrite (read_list_list _ _ _ LA) in X.
  exists (entered m k), m2. eexists. split; [apply (enter_ok m f); auto|]. split; [exact R2|].
  split; [rewrite (step_exec _ m2 _ F2); exact X|]. split; [reflexivity|]. split; [unfold frame_args; simpl; apply push_all_args|].
  repeat (split; [reflexivity|]). intros i L. simpl. apply push_all_low. lia.
Qed.

(** The last argument is not a list, or the first is not a procedure. *)
Theorem C36_apply_rejects :
  forall prim m f g mid l,
    m_cp m = RV f -> is_apply m f -> frame_args m = Some (g :: mid ++ [l]) ->
    (clo_at (RV g) (m_data m) = None \/ improper (d_heap (m_data m)) l) ->
    exists m1 m2 m3 v, do_application m = Next m1 /\ reaches prim m1 m2 /\ step prim m2 = Fail (ErrApply v) m3 /\ (v = g \/ v = l) /\
      m_data m3 = m_data m.
Proof.
  intros prim m f g mid l CP [k [CA W]] FA H.
  assert (AR := apply_run prim m k _ W FA). rewrite two_args in AR. destruct AR as [R2 F2].
  set (m2 := counted (entered m k) 2) in *. assert (X := apply_exec prim m2 g mid l FA).
  change (m_data m2) with (m_data m) in X.
  exists (entered m k), m2, (set_cp m2 (RV g) (m_ac m2)).
  destruct (clo_at (RV g) (m_data m)) as [kg|].
  - destruct H as [H|H]; [discriminate|]. rewrite (read_list_improper _ _ H) in X. exists l.
    split; [apply (enter_ok m f); auto|]. split; [exact R2|]. split; [rewrite (step_exec _ m2 _ F2); exact X|]. auto.
  - exists g. split; [apply (enter_ok m f); auto|]. split; [exact R2|]. split; [rewrite (step_exec _ m2 _ F2); exact X|]. auto.
Qed.
(** Fewer than two arguments. *)
Theorem C36_apply_arity :
  forall prim m f vs,
    m_cp m = RV f -> is_apply m f -> frame_args m = Some vs -> List.length vs < 2 ->
    exists m1 m2 m3, do_application m = Next m1 /\ reaches prim m1 m2 /\ step prim m2 = Fail (ErrArity f (List.length vs)) m3.
Proof.
  intros prim m f vs CP [k [CA W]] FA L.
  assert (AR := apply_run prim m k _ W FA). apply Nat.ltb_lt in L. rewrite L in AR. destruct AR as [R4 F4].
  exists (entered m k), (counted (entered m k) 4), (counted (entered m k) 4). split; [apply (enter_ok m f); auto|]. split; auto.
  rewrite (step_exec _ (counted (entered m k) 4) _ F4). cbn [Vm.exec counted goto set_r0 entered m_cp m_ac].
  rewrite CP, (frame_len _ _ FA). reflexivity.
Qed.
Example C36_spreads_two :
  let d := Data [COther 0; COther 0; CPair (VFix 5) (VPtr 3); CPair (VFix 6) VNull]
                [(0, Clo (match apply_code with Some c => c | None => Code [] ANull [] end) 0 []);
                 (1, Clo (match values_code with Some c => c | None => Code [] ANull [] end) 0 [])] [] [] [[]] in
  let m := M (Code [] ANull []) 0 RNull RNull (RV (VPtr 0)) 3 0 (push_all (fun _ => SNone) 1 [VPtr 1; VFix 4; VPtr 2]) [] 0 0 [] d in
  is_apply m (VPtr 0) /\ frame_args m = Some (VPtr 1 :: [VFix 4] ++ [VPtr 2]) /\ clo_at (RV (VPtr 1)) (m_data m) <> None /\
  list_at (d_heap (m_data m)) (VPtr 2) [VFix 5; VFix 6].
Proof.
  simpl. split; [eexists; split; reflexivity|]. split; [reflexivity|]. split; [discriminate|].
  econstructor; [reflexivity|]. econstructor; [reflexivity|]. constructor.
Qed.

(** ** C37: multiple values *)

(** (values v1 ... vn) returns v1 ... vn. *)
Theorem C37_values_returns :
  forall prim m f vs k,
    m_cp m = RV f -> clo_at (RV f) (m_data m) = Some k -> values_code = Some (c_code k) -> frame_args m = Some vs ->
    exists m1 m2, do_application m = Next m1 /\ reaches prim m1 m2 /\ nth_error (instrs_of (m_code m2)) (m_pc m2) = Some Iret /\
      result_vals m2 = Some vs /\ m_sfp m2 = m_sfp m /\ m_cc m2 = m_cc m /\ m_data m2 = m_data m.
Proof.
  intros prim m f vs k CP CA W FA.
  assert (PL := placed_written _ _ _ values_assembled W).
  assert (H := here_start values_items). unfold values_items in H at 2.
  assert (F0 : nth_error (instrs_of (c_code k)) 0 = Some Ido_values) by (eapply here_plain; eauto).
  apply here_ins in H.
  assert (F1 : nth_error (instrs_of (c_code k)) 1 = Some Iret) by (eapply here_plain; eauto).
  destruct (do_values_res prim vs (entered m k) FA (frame_len _ _ FA)) as [m2 [X [Y1 [Y2 [Y3 [Y4 [Y5 [Y6 [Y7 [Y8 [Y9 Y10]]]]]]]]]]].
  exists (entered m k), m2. split; [apply (enter_ok m f); auto|]. split; [eapply one; [exact F0|exact X]|].
  split; [rewrite Y1, Y2; exact F1|]. split; [apply res_vals; exact Y10|]. auto.
Qed.

Section Top.
  Variables (prim : N -> list val -> heap -> option presult).
  Lemma top_tail e c s d stk env vc vals f vs s1 :
    compile_top e = Some c -> wf false true e = true -> drel s d -> env < List.length (d_envs d) ->
    tcall prim true [] s e f vs s1 ->
    exists m, reaches prim (start c stk env vc vals d) m /\ step prim m = do_application m /\ at_call m f vs s1.
  Proof.
    intros CT W R LE TC. destruct (C33_top_level_loop prim e c s d stk env vc vals f vs s1 0 f vs s1 CT W R LE TC (ChNil prim s1 f vs))
      as [m0 [m1 [m2 [R1 [S1 [CR [A _]]]]]]]. inversion CR; subst.
    destruct (top_inv _ _ CT) as [its [cs [P' [reloc [C [RR WC]]]]]]. destruct (top_assembled _ _ _ C) as [AS RO].
    assert (PL : placed c (tmpls cs) (top_items e its)) by (eapply placed_of; eauto).
    destruct (top_ctx prim e its cs c stk env vc vals s d C PL R LE) as [m1 [R1' [PL1 [H1 [CX1 [SF [CC G1]]]]]]].
    destruct (proj1 (tail_simulation prim) _ _ _ _ _ _ _ TC (tmpls cs) (top_items e its) [] _ _ _ m1 PL1 C (ex_intro _ [] eq_refl) H1 W
                (closed_top _ _) CX1) as [mA [B1 B2 B3 B4 B5 B6 B7 B8 B9]].
    exists mA. split; [eapply reaches_trans; eauto|]. split; [rewrite (step_exec _ _ _ B2); reflexivity|]. split; auto.
  Qed.
End Top.

(** (mv-call p c), the core form of call-with-values: the consumer is called with
    exactly the values of the producer. *)
Theorem C37_consumer_receives_partial :
  forall prim p cons c s d stk env vc vals vs s1 f s2,
    compile_top (EMvCall p cons) = Some c -> wf false true (EMvCall p cons) = true -> drel s d -> env < List.length (d_envs d) ->
    eval prim true [] s p (RVals vs) s1 -> eval1 prim true [] s1 cons (inl f) s2 ->
    exists m, reaches prim (start c stk env vc vals d) m /\ step prim m = do_application m /\ m_cp m = RV f /\ frame_args m = Some vs.
Proof.
  intros prim p cons c s d stk env vc vals vs s1 f s2 CT W R LE E1 E2.
  destruct (top_tail prim (EMvCall p cons) c s d stk env vc vals f vs s2 CT W R LE) as [m [R1 [S1 [A [B _]]]]].
  - econstructor; eauto.
  - exists m. auto.
Qed.

(** (define-values (x1 ... xn) e): the variables get the values of [e] if there
    are n of them; otherwise an error is raised and no variable changes. *)
Theorem C37_define_values_partial :
  forall prim ids e c s d stk env vc vals vs s1,
    compile_top (EDefine ids e) = Some c -> wf false true (EDefine ids e) = true -> drel s d -> env < List.length (d_envs d) ->
    eval prim true [] s e (RVals vs) s1 -> NoDup ids ->
    if List.length vs =? List.length ids
    then exists r m, ends prim (start c stk env vc vals d) (Done r m) /\
           (forall i x, nth_error ids i = Some x -> exists v, nth_error vs i = Some v /\ glob_ref x (d_glob (m_data m)) = Some v)
    else exists m, ends prim (start c stk env vc vals d) (Fail (ErrResults (List.length ids) (List.length vs)) m) /\
           (forall x, global_value (d_glob (m_data m)) x = global_value (glob_of s1) x).
Proof.
  intros prim ids e c s d stk env vc vals vs s1 CT W R LE E ND.
  assert (GV : forall s' m, drel s' (m_data m) -> forall x, global_value (d_glob (m_data m)) x = global_value (glob_of s') x).
  { intros s' m R' x. assert (Q := dr_glob _ _ R' x). unfold global_value.
    destruct (glob_ref x (glob_of s')); [rewrite Q; auto|destruct Q as [-> | ->]; auto]. }
  destruct (Nat.eqb_spec (List.length vs) (List.length ids)) as [L|L].
  - destruct (top_run prim (EDefine ids e) c s d (RVals [VVoid]) (set_globs ids vs s1) stk env vc vals CT W (EvDefine _ _ _ _ _ _ _ _ E L) R LE)
      as [m [r [X [_ [_ [R' _]]]]]].
    exists r, m. split; auto. intros i x N. assert (Q := dr_glob _ _ R' x).
    assert (G : forall ids vs s, NoDup ids -> List.length vs = List.length ids -> forall i x, nth_error ids i = Some x ->
                exists v, nth_error vs i = Some v /\ glob_ref x (glob_of (set_globs ids vs s)) = Some v).
    { clear. intros ids. assert (K : forall ids vs s x, ~ In x ids -> glob_ref x (glob_of (set_globs ids vs s)) = glob_ref x (glob_of s)).
      { clear. induction ids as [|y ys IH]; intros [|v vs] s x NI; simpl in *; auto. rewrite IH by tauto. unfold set_glob. simpl.
        rewrite glob_ref_set. destruct (ident_eqb_spec y x); auto. subst. tauto. }
      induction ids as [|y ys IH]; intros [|v vs] s ND L [|i] x N; simpl in *; try discriminate; inversion ND; subst.
      - injection N as ->. exists v. split; auto. rewrite K by auto. simpl. rewrite glob_ref_set, ident_eqb_refl. reflexivity.
      - apply IH; auto. }
    destruct (G ids vs s1 ND L i x N) as [v [Nv Gv]]. exists v. rewrite Gv in Q. auto.
  - destruct (top_run prim (EDefine ids e) c s d _ _ stk env vc vals CT W (EvDefineBad _ _ _ _ _ _ _ _ E L) R LE) as [m [X R']].
    exists m. split; auto.
Qed.

(** (mv-let e (x1 ... xn) body), the core form of let-values: the body runs with
    the variables bound to the values of [e] if there are n of them; otherwise an
    error is raised. *)
Theorem C37_let_values_partial :
  forall prim xs e b c s d stk env vc vals vs s1,
    compile_top (EMvLet e (Formals xs None) b) = Some c -> wf false true (EMvLet e (Formals xs None) b) = true ->
    drel s d -> env < List.length (d_envs d) -> eval prim true [] s e (RVals vs) s1 -> NoDup xs ->
    if List.length vs =? List.length xs
    then exists m sc, reaches prim (start c stk env vc vals d) m /\ at_body m [b] sc /\
           forall i x, nth_error xs i = Some x -> var_value sc x m = nth_error vs i
    else exists m, ends prim (start c stk env vc vals d) (Fail (ErrResults (List.length xs) (List.length vs)) m).
Proof.
  intros prim xs e b c s d stk env vc vals vs s1 CT W R LE EV ND.
  destruct (Nat.eqb_spec (List.length vs) (List.length xs)) as [LV|LV].
  2:{ destruct (top_run prim _ c s d _ _ stk env vc vals CT W (EvMvLetBad _ _ _ _ _ _ b _ _ EV LV) R LE) as [m [X R']]. exists m. auto. }
  destruct (top_inv _ _ CT) as [its [cs [P' [reloc [CM [RR WC]]]]]]. destruct (top_assembled _ _ _ CM) as [AS RO].
  set (P := top_items _ its) in *.
  assert (PL : placed c (tmpls cs) P) by (eapply placed_of; eauto).
  destruct (top_ctx prim _ its cs c stk env vc vals s d CM PL R LE) as [m0 [R0 [PL0 [H [CX [SF [CC G1]]]]]]].
  inversion CM as [| | | | |? ? ? ? ? ? ? ? ? ? ? ? ? PO| | |? ? ? ? ? ? its1 cs1 its2 ? C1 C2| | | | | | | ]; subst; [discriminate|].
  simpl in W. apply andb_true_iff in W. destruct W as [W1 W2]. rewrite mvlet_bound in CX.
  destruct (here_app _ _ _ _ H) as [Ha Hb].
  destruct (proj1 (simulation prim) _ _ _ _ _ _ EV (tmpls cs) P [] false true _ _ _ m0 PL0 C1) as [m1 A]; auto; try discriminate.
  { eapply ext_left; [exists []; reflexivity|]. eapply comp_tmpls; eauto. }
  { eapply ctx_le; eauto. lia. }
  assert (CX1 := ctx_arr _ _ _ _ _ _ _ _ _ _ _ _ CX A).
  destruct CX1 as [[sl [E1 [E2 E3]]] RD C].
  destruct (bind_all_ok xs vs true [] [] sl s1 (m_data m1) (m_env m1) LV RD E1 ltac:(simpl in *; lia) E3) as [d' [sl' [B [N1 [L1 [EO [R' K]]]]]]].
  assert (F : nth_error (instrs_of (m_code m1)) (m_pc m1) = Some (Ibind_values 0 (List.length xs) xs)).
  { rewrite (ar_code _ _ _ _ _ _ _ _ A), (ar_pc _ _ _ _ _ _ _ _ A). eapply here_plain; eauto. }
  set (m2 := goto (set_r0 (set_data m1 d') (RV VVoid)) (S (m_pc m1))).
  exists m2, (rev xs ++ []). split; [|split].
  - eapply reaches_trans; [exact R0|]. eapply reaches_trans; [apply A|]. eapply one; [exact F|]. cbn [Vm.exec].
    rewrite (res_vals _ _ (ar_res _ _ _ _ _ _ _ _ A)). rewrite (proj2 (Nat.eqb_eq _ _) LV). simpl in B. rewrite B. reflexivity.
  - exists (tmpls cs), P, cs1, its2, cs. split; [|split].
    + simpl. rewrite (ar_code _ _ _ _ _ _ _ _ A). auto.
    + simpl. rewrite (ar_pc _ _ _ _ _ _ _ _ A). apply here_ins in Hb. exact Hb.
    + constructor. exact C2.
  - intros i x N. destruct EO as [EO _]. unfold var_value.
    destruct (scope_ref (rev xs ++ []) x) as [j|] eqn:SR.
    2:{ apply scope_ref_In in SR; [contradiction|]. rewrite app_nil_r. apply -> in_rev. eapply nth_error_In; eauto. }
    destruct (EO x j SR) as [cr [NS CR]]. unfold env_slot. simpl. rewrite N1, NS.
    unfold cref_ok in CR. rewrite (lookup_bind_nth _ _ _ _ _ ND N) in CR. destruct CR as [-> NC]. simpl.
    rewrite nth_map in NC. assert (Q := dr_cells _ _ R'). simpl in Q.
    assert (Q2 := f_equal (fun l => nth_error l (List.length (cells_of s1) + i)) Q). simpl in Q2. rewrite nth_map in Q2.
    rewrite nth_error_app2 in Q2 by lia. replace (_ + i - _) with i in Q2 by lia. rewrite Q2.
    destruct (nth_error (d_cells d') (List.length (cells_of s1) + i)) as [[y v]|]; auto.
Qed.

(** (mv-let (mv-values 1 2) (x y) (f y x)) meets the hypotheses. *)
Example C37_two_values :
  let e := EMvValues [EConst (VFix 1); EConst (VFix 2)] in
  let l := EMvLet e (Formals [idx; idy] None) (EApp (EVar idf) [EVar idy; EVar idx]) in
  wf false true l = true /\ (exists c, compile_top l = Some c) /\ drel no_store no_data /\
  eval no_prim true [] no_store e (RVals [VFix 1; VFix 2]) no_store /\ NoDup [idx; idy].
Proof.
  split; [reflexivity|]. split; [apply C28_compilation_succeeds; reflexivity|]. split; [repeat constructor|]. split.
  - constructor. repeat (eapply EaCons; [constructor; constructor|]). apply EaNil.
  - repeat constructor; simpl; intuition discriminate.
Qed.

(** A program with recursion, assignment, a rest list and multiple values, in a
    system with one primitive. *)
Definition ex_sys : list (ident * sproc) :=
  [(Id "add", PPrim 0 2); (Id "values", PValues); (Id "apply", PApply); (Id "void", PVoid)].
Definition ex_prim : N -> list val -> heap -> option presult :=
  fun p vs h => match vs with [VFix a; VFix b] => Some (PrimVal (VFix (a + b)) h) | _ => Some (PrimErr (EArg "add" VVoid) h) end.
Definition ex_program : list expr :=
  [EDefine [idf] (ELam (Formals [ida] (Some idb)) [EIf (EVar ida) (EApp (EVar (Id "apply")) [EVar (Id "add"); EVar idb]) (EApp (EVar (Id "values")) [EVar idb; EVar ida])]);
   EApp (EVar idf) [EConst VTrue; EConst (VFix 3); EConst (VFix 4)];
   EMvLet (EApp (EVar idf) [EConst VFalse]) (Formals [idx; idy] None) (EBegin [ESet idx (EConst (VFix 9)); EVar idx]);
   EApp (EVar idf) []].
Example C31_program_wf : Forall (fun e => compilable e = true /\ wf false true e = true) ex_program.
Proof. repeat constructor. Qed.
Example C31_program_boots : exists d0, boot_data ex_sys no_data = Some d0.
Proof. eexists. vm_compute. reflexivity. Qed.
Example C31_program_means :
  exists s', meaning ex_prim (boot_store ex_sys no_store) ex_program [RVals [VVoid]; RVals [VFix 7]; RVals [VFix 9]; RErr (ErrArity (VPtr 4) 0)] s'.
Proof.
  eexists. econstructor; [|econstructor; [|econstructor; [|apply MnErr]]].
  - eapply (EvDefine _ _ _ _ _ _ [VPtr 4]); [constructor; reflexivity|reflexivity].
  - eapply EvApp; [constructor; eapply EvGlobal; [reflexivity|reflexivity|discriminate]| |].
    { repeat (eapply EaCons; [constructor; constructor|]). apply EaNil. }
    eapply ApClo; [reflexivity|reflexivity|reflexivity|]. constructor.
    eapply EvIfTrue; [eapply EvLocal; [reflexivity|reflexivity|discriminate]|discriminate|].
    eapply EvApp; [constructor; eapply EvGlobal; [reflexivity|reflexivity|discriminate]| |].
    { eapply EaCons; [constructor; eapply EvGlobal; [reflexivity|reflexivity|discriminate]|].
      eapply EaCons; [constructor; eapply EvLocal; [reflexivity|reflexivity|discriminate]|]. apply EaNil. }
    eapply (ApApply _ _ _ _ []); [reflexivity|discriminate| |].
    { econstructor; [reflexivity|]. econstructor; [reflexivity|]. constructor. }
    eapply ApPrim; [reflexivity|simpl; lia|reflexivity].
  - eapply (EvMvLet _ _ _ _ _ _ _ [VNull; VFalse]); [|reflexivity|].
    { eapply EvApp; [constructor; eapply EvGlobal; [reflexivity|reflexivity|discriminate]| |].
      { repeat (eapply EaCons; [constructor; constructor|]). apply EaNil. }
      eapply ApClo; [reflexivity|reflexivity|reflexivity|]. constructor.
      eapply EvIfFalse; [eapply EvLocal; [reflexivity|reflexivity|discriminate]|].
      eapply EvApp; [constructor; eapply EvGlobal; [reflexivity|reflexivity|discriminate]| |].
      { eapply EaCons; [constructor; eapply EvLocal; [reflexivity|reflexivity|discriminate]|].
        eapply EaCons; [constructor; eapply EvLocal; [reflexivity|reflexivity|discriminate]|]. apply EaNil. }
      apply ApValues; reflexivity. }
    constructor. eapply EsCons.
    { eapply EvSetLocal; [constructor|reflexivity|]. simpl. lia. }
    constructor. eapply EvLocal; [reflexivity|reflexivity|discriminate].
  - eapply EvApp; [constructor; eapply EvGlobal; [reflexivity|reflexivity|discriminate]|apply EaNil|].
    eapply ApCloArity; reflexivity.
Qed.
Print Assumptions C31_programs_partial.
Print Assumptions C31_programs_unique_partial.
Print Assumptions C31_values_in_argument_refuted.
Print Assumptions C31_inner_definition_refuted.
Print Assumptions C33_tail_calls_constant_continuation.
Print Assumptions C33_top_level_loop.
Print Assumptions C34_clause_selected.
Print Assumptions C34_arity_error.
Print Assumptions C36_apply_spreads_partial.
Print Assumptions C36_apply_rejects.
Print Assumptions C36_apply_arity.
Print Assumptions C37_values_returns.
Print Assumptions C37_consumer_receives_partial.
Print Assumptions C37_define_values_partial.
Print Assumptions C37_let_values_partial.
