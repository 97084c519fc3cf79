(** C76: eval runs the code of the expression in the environment it is given; the
    environment of the caller is not restored. *)
From Coq Require Import ZArith NArith Bool Ascii String List Arith Lia.
From Verif Require Import Base Heap HeapM Ast Sem Code CodeProofs Compile CompRel CompProofs CompThm Vm Sim SimLemmas SimProofs SimThm Opt Pipe PipeProofs EvalPrim.
Import ListNotations.
Local Open Scope list_scope.
Local Open Scope nat_scope.

(** ** Specification *)

(** [eval] has just been called with the arguments [vs]. *)
Record eval_called (s : est) (vs : list val) : Prop := Called {
  ca_code : m_code (e_m s) = eval_code;
  ca_pc : m_pc (e_m s) = 0;
  ca_ac : m_ac (e_m s) = List.length vs;
  ca_args : forall i v, nth_error vs i = Some v -> m_stk (e_m s) (S (m_sfp (e_m s)) + i) = SVal v;
  ca_clos : forall l k, clo_ref l (d_clos (m_data (e_m s))) = Some k -> l < List.length (d_heap (m_data (e_m s))) }.

(** The code [c] is about to run without arguments, in an empty local environment.  In
    memory there is one object more than in [s] (the procedure that runs it). *)
Record begins (c : code) (s s1 : est) : Prop := Begins {
  bg_code : m_code (e_m s1) = c;
  bg_pc : m_pc (e_m s1) = 0;
  bg_ac : m_ac (e_m s1) = 0;
  bg_env : nth_error (d_envs (m_data (e_m s1))) (m_env (e_m s1)) = Some [];
  bg_envs : d_envs (m_data (e_m s1)) = d_envs (m_data (e_m s)) ++ [[]];
  bg_heap : d_heap (m_data (e_m s1)) = d_heap (m_data (e_m s)) ++ [COther 0];
  bg_clos : d_clos (m_data (e_m s1)) = d_clos (m_data (e_m s));
  bg_cells : d_cells (m_data (e_m s1)) = d_cells (m_data (e_m s));
  bg_glob : d_glob (m_data (e_m s1)) = d_glob (m_data (e_m s));
  bg_tops : e_tops s1 = e_tops s }.

(** The frame and the continuation of [s], and the stack up to the frame. *)
Definition same_frame (s s1 : est) : Prop :=
  m_sfp (e_m s1) = m_sfp (e_m s) /\ m_cc (e_m s1) = m_cc (e_m s) /\
  forall i, i <= m_sfp (e_m s) -> m_stk (e_m s1) i = m_stk (e_m s) i.
(** The machine is about to return from the frame that it had in [s]. *)
Definition about_to_return (s s2 : est) : Prop := same_frame s s2 /\ fetch (e_m s2) = Some (EI Iret).
(** The same values are returned and the same data left. *)
Definition same_result (s2 s3 : est) : Prop :=
  m_r0 (e_m s3) = m_r0 (e_m s2) /\ m_vc (e_m s3) = m_vc (e_m s2) /\ m_vals (e_m s3) = m_vals (e_m s2) /\
  m_data (e_m s3) = m_data (e_m s2) /\ e_tops s3 = e_tops s2.

Section Eval.
  Variable prim : N -> list val -> heap -> option presult.
  Variable cmp : heap -> val -> option code.
  Variables cur_env set_env : N.
  Notation ereaches := (ereaches prim cmp cur_env set_env).
  Notation estep := (estep prim cmp cur_env set_env).

  Lemma clo_ref_app l a b : clo_ref l a = None -> clo_ref l (a ++ b) = clo_ref l b.
  Proof. induction a as [|[k c] a IH]; auto. cbn. destruct (Nat.eqb k l); [discriminate|auto]. Qed.
  Lemma clo_ref_app_some l a b c : clo_ref l a = Some c -> clo_ref l (a ++ b) = Some c.
  Proof. induction a as [|[k c'] a IH]; [discriminate|]. cbn. destruct (Nat.eqb k l); auto. Qed.

  Lemma eval_instrs_are : eval_instrs =
    [EI (Imov Rres Rac); EI (Ibranchne 1 7); EI (Iget_arg Rres 0); EDoEval; EI Iclear_frame; EI Iset_proc; EI Iapply;
     EI (Ibranchne 2 20); EI (Iget_arg Rres 0); EI (Iget_arg Rt0 1); EGetTenv Rt1; ESetArg 1 Rt1; ESetTenv Rt0; EDoEval; EI (Isave_cc 17);
     EI Iset_proc; EI Iapply; EI (Iget_arg Rt0 1); ESetTenv Rt0; EI Iret; EI Ido_arity_error].
  Proof. vm_compute. reflexivity. Qed.
  Lemma step_at s k i : m_code (e_m s) = eval_code -> m_pc (e_m s) = k -> nth_error eval_instrs k = Some i ->
    estep s = eexec prim cmp cur_env set_env i s.
  Proof. intros C P N. unfold EvalPrim.estep, fetch. rewrite C, P. cbn [instrs_of eval_code]. rewrite N. reflexivity. Qed.
  Lemma s0 (r0 : rval) (t0 : rval) (cp : rval) (ac : nat) (sfp : nat) (stk : nat -> slot) (cc : list cont) (env : nat) (vc : nat) (vals : list val) (d : data) (t1 : rval) (tenv : val) (ecl : list (nat * mclo)) (tops : list nat) : 
    estep (E (M eval_code 0 r0 t0 cp ac sfp stk cc env vc vals d) t1 tenv ecl tops) =
    ENext (E (M eval_code 1 (RNum ac) t0 cp ac sfp stk cc env vc vals d) t1 tenv ecl tops).
  Proof. intros. erewrite step_at; [|reflexivity|reflexivity|rewrite eval_instrs_are; reflexivity]. reflexivity. Qed.
  Lemma s1 (t0 : rval) (cp : rval) (ac : nat) (sfp : nat) (stk : nat -> slot) (cc : list cont) (env : nat) (vc : nat) (vals : list val) (d : data) (t1 : rval) (tenv : val) (ecl : list (nat * mclo)) (tops : list nat) : 
    estep (E (M eval_code 1 (RNum 1) t0 cp ac sfp stk cc env vc vals d) t1 tenv ecl tops) =
    ENext (E (M eval_code 2 (RNum 1) t0 cp ac sfp stk cc env vc vals d) t1 tenv ecl tops).
  Proof. intros. erewrite step_at; [|reflexivity|reflexivity|rewrite eval_instrs_are; reflexivity]. reflexivity. Qed.
  Lemma s1n (t0 : rval) (cp : rval) (ac : nat) (sfp : nat) (stk : nat -> slot) (cc : list cont) (env : nat) (vc : nat) (vals : list val) (d : data) (t1 : rval) (tenv : val) (ecl : list (nat * mclo)) (tops : list nat) k : k <> 1 ->
    estep (E (M eval_code 1 (RNum k) t0 cp ac sfp stk cc env vc vals d) t1 tenv ecl tops) =
    ENext (E (M eval_code 7 (RNum k) t0 cp ac sfp stk cc env vc vals d) t1 tenv ecl tops).
  Proof. intros. erewrite step_at; [|reflexivity|reflexivity|rewrite eval_instrs_are; reflexivity]. cbn [eexec on_globals exec e_m m_r0]. destruct (Nat.eqb_spec k 1); [contradiction|reflexivity]. Qed.
  Lemma s2 (r0 : rval) (t0 : rval) (cp : rval) (ac : nat) (sfp : nat) (stk : nat -> slot) (cc : list cont) (env : nat) (vc : nat) (vals : list val) (d : data) (t1 : rval) (tenv : val) (ecl : list (nat * mclo)) (tops : list nat) v : stk (S sfp) = SVal v ->
    estep (E (M eval_code 2 r0 t0 cp ac sfp stk cc env vc vals d) t1 tenv ecl tops) =
    ENext (E (M eval_code 3 (RV v) t0 cp ac sfp stk cc env vc vals d) t1 tenv ecl tops).
  Proof. intros. erewrite step_at; [|reflexivity|reflexivity|rewrite eval_instrs_are; reflexivity]. cbn [eexec on_globals exec e_m m_r0 m_stk m_sfp]. rewrite Nat.add_0_r, H. reflexivity. Qed.
  Lemma s3 (t0 : rval) (cp : rval) (ac : nat) (sfp : nat) (stk : nat -> slot) (cc : list cont) (env : nat) (vc : nat) (vals : list val) (d : data) (t1 : rval) (tenv : val) (ecl : list (nat * mclo)) (tops : list nat) v c : cmp (d_heap d) v = Some c ->
    estep (E (M eval_code 3 (RV v) t0 cp ac sfp stk cc env vc vals d) t1 tenv ecl tops) =
    ENext (E (M eval_code 4 (RV (VPtr (List.length (d_heap d)))) t0 cp ac sfp stk cc env vc vals (Data (d_heap d ++ [COther 0]) (d_clos d) (d_cells d) (d_glob d) (d_envs d ++ [[]]))) t1 tenv ((List.length (d_heap d), Clo c (List.length (d_envs d)) []) :: ecl) tops).
  Proof. intros. erewrite step_at; [|reflexivity|reflexivity|rewrite eval_instrs_are; reflexivity]. cbn [eexec e_m m_r0 m_data]. rewrite H. reflexivity. Qed.
  Lemma s4 (r0 : rval) (t0 : rval) (cp : rval) (ac : nat) (sfp : nat) (stk : nat -> slot) (cc : list cont) (env : nat) (vc : nat) (vals : list val) (d : data) (t1 : rval) (tenv : val) (ecl : list (nat * mclo)) (tops : list nat) : 
    estep (E (M eval_code 4 r0 t0 cp ac sfp stk cc env vc vals d) t1 tenv ecl tops) =
    ENext (E (M eval_code 5 r0 t0 RNull 0 sfp stk cc env vc vals d) t1 tenv ecl tops).
  Proof. intros. erewrite step_at; [|reflexivity|reflexivity|rewrite eval_instrs_are; reflexivity]. reflexivity. Qed.
  Lemma s5 (t0 : rval) (cp : rval) (ac : nat) (sfp : nat) (stk : nat -> slot) (cc : list cont) (env : nat) (vc : nat) (vals : list val) (d : data) (t1 : rval) (tenv : val) (ecl : list (nat * mclo)) (tops : list nat) v : 
    estep (E (M eval_code 5 (RV v) t0 cp ac sfp stk cc env vc vals d) t1 tenv ecl tops) =
    ENext (E (M eval_code 6 (RV v) t0 (RV v) ac sfp stk cc env vc vals d) t1 tenv ecl tops).
  Proof. intros. erewrite step_at; [|reflexivity|reflexivity|rewrite eval_instrs_are; reflexivity]. reflexivity. Qed.
  Lemma s6 (r0 : rval) (t0 : rval) (ac : nat) (sfp : nat) (stk : nat -> slot) (cc : list cont) (env : nat) (vc : nat) (vals : list val) (d : data) (t1 : rval) (tenv : val) (ecl : list (nat * mclo)) (tops : list nat) l c : clo_ref l (d_clos d) = None -> clo_ref l ecl = Some c ->
    estep (E (M eval_code 6 r0 t0 (RV (VPtr l)) ac sfp stk cc env vc vals d) t1 tenv ecl tops) =
    ENext (E (M (c_code c) 0 r0 t0 (RV (VPtr l)) ac sfp stk cc (c_env c) vc vals d) t1 tenv ecl tops).
  Proof. intros. erewrite step_at; [|reflexivity|reflexivity|rewrite eval_instrs_are; reflexivity]. cbn [eexec e_m]. unfold all_clos, set_data, exec, do_application, clo_at. cbn [m_cp m_data d_clos with_clos e_clos e_m m_code m_pc m_r0 m_t0 m_ac m_sfp m_stk m_cc m_env m_vc m_vals]. rewrite clo_ref_app, H0 by exact H. destruct d; reflexivity. Qed.
  Lemma s7 (t0 : rval) (cp : rval) (ac : nat) (sfp : nat) (stk : nat -> slot) (cc : list cont) (env : nat) (vc : nat) (vals : list val) (d : data) (t1 : rval) (tenv : val) (ecl : list (nat * mclo)) (tops : list nat) : 
    estep (E (M eval_code 7 (RNum 2) t0 cp ac sfp stk cc env vc vals d) t1 tenv ecl tops) =
    ENext (E (M eval_code 8 (RNum 2) t0 cp ac sfp stk cc env vc vals d) t1 tenv ecl tops).
  Proof. intros. erewrite step_at; [|reflexivity|reflexivity|rewrite eval_instrs_are; reflexivity]. reflexivity. Qed.
  Lemma s7n (t0 : rval) (cp : rval) (ac : nat) (sfp : nat) (stk : nat -> slot) (cc : list cont) (env : nat) (vc : nat) (vals : list val) (d : data) (t1 : rval) (tenv : val) (ecl : list (nat * mclo)) (tops : list nat) k : k <> 2 ->
    estep (E (M eval_code 7 (RNum k) t0 cp ac sfp stk cc env vc vals d) t1 tenv ecl tops) =
    ENext (E (M eval_code 20 (RNum k) t0 cp ac sfp stk cc env vc vals d) t1 tenv ecl tops).
  Proof. intros. erewrite step_at; [|reflexivity|reflexivity|rewrite eval_instrs_are; reflexivity]. cbn [eexec on_globals exec e_m m_r0]. destruct (Nat.eqb_spec k 2); [contradiction|reflexivity]. Qed.
  Lemma s8 (r0 : rval) (t0 : rval) (cp : rval) (ac : nat) (sfp : nat) (stk : nat -> slot) (cc : list cont) (env : nat) (vc : nat) (vals : list val) (d : data) (t1 : rval) (tenv : val) (ecl : list (nat * mclo)) (tops : list nat) v : stk (S sfp) = SVal v ->
    estep (E (M eval_code 8 r0 t0 cp ac sfp stk cc env vc vals d) t1 tenv ecl tops) =
    ENext (E (M eval_code 9 (RV v) t0 cp ac sfp stk cc env vc vals d) t1 tenv ecl tops).
  Proof. intros. erewrite step_at; [|reflexivity|reflexivity|rewrite eval_instrs_are; reflexivity]. cbn [eexec on_globals exec e_m m_r0 m_stk m_sfp]. rewrite Nat.add_0_r, H. reflexivity. Qed.
  Lemma s9 (r0 : rval) (t0 : rval) (cp : rval) (ac : nat) (sfp : nat) (stk : nat -> slot) (cc : list cont) (env : nat) (vc : nat) (vals : list val) (d : data) (t1 : rval) (tenv : val) (ecl : list (nat * mclo)) (tops : list nat) v : stk (S sfp + 1) = SVal v ->
    estep (E (M eval_code 9 r0 t0 cp ac sfp stk cc env vc vals d) t1 tenv ecl tops) =
    ENext (E (M eval_code 10 r0 (RV v) cp ac sfp stk cc env vc vals d) t1 tenv ecl tops).
  Proof. intros. erewrite step_at; [|reflexivity|reflexivity|rewrite eval_instrs_are; reflexivity]. cbn [eexec on_globals exec e_m m_r0 m_stk m_sfp]. rewrite H. reflexivity. Qed.
  Lemma s10 (r0 : rval) (t0 : rval) (cp : rval) (ac : nat) (sfp : nat) (stk : nat -> slot) (cc : list cont) (env : nat) (vc : nat) (vals : list val) (d : data) (t1 : rval) (tenv : val) (ecl : list (nat * mclo)) (tops : list nat) : 
    estep (E (M eval_code 10 r0 t0 cp ac sfp stk cc env vc vals d) t1 tenv ecl tops) =
    ENext (E (M eval_code 11 r0 t0 cp ac sfp stk cc env vc vals d) (RV tenv) tenv ecl tops).
  Proof. intros. erewrite step_at; [|reflexivity|reflexivity|rewrite eval_instrs_are; reflexivity]. reflexivity. Qed.
  Lemma s11 (t0 : rval) (cp : rval) (ac : nat) (sfp : nat) (stk : nat -> slot) (cc : list cont) (env : nat) (vc : nat) (vals : list val) (d : data) (t1 : rval) (tenv : val) (ecl : list (nat * mclo)) (tops : list nat) v : 
    estep (E (M eval_code 11 (RV v) t0 cp ac sfp stk cc env vc vals d) t1 tenv ecl tops) =
    ENext (E (M eval_code 12 (RV v) t0 cp ac sfp (upd_stk (S sfp + 1) (SVal v) stk) cc env vc vals d) t1 tenv ecl tops).
  Proof. intros. erewrite step_at; [|reflexivity|reflexivity|rewrite eval_instrs_are; reflexivity]. reflexivity. Qed.
  Lemma s12 (r0 : rval) (cp : rval) (ac : nat) (sfp : nat) (stk : nat -> slot) (cc : list cont) (env : nat) (vc : nat) (vals : list val) (d : data) (t1 : rval) (tenv : val) (ecl : list (nat * mclo)) (tops : list nat) w : 
    estep (E (M eval_code 12 r0 (RV w) cp ac sfp stk cc env vc vals d) t1 tenv ecl tops) =
    ENext (E (M eval_code 13 r0 (RV w) cp ac sfp stk cc env vc vals d) t1 w ecl tops).
  Proof. intros. erewrite step_at; [|reflexivity|reflexivity|rewrite eval_instrs_are; reflexivity]. reflexivity. Qed.
  Lemma s13 (t0 : rval) (cp : rval) (ac : nat) (sfp : nat) (stk : nat -> slot) (cc : list cont) (env : nat) (vc : nat) (vals : list val) (d : data) (t1 : rval) (tenv : val) (ecl : list (nat * mclo)) (tops : list nat) v c : cmp (d_heap d) v = Some c ->
    estep (E (M eval_code 13 (RV v) t0 cp ac sfp stk cc env vc vals d) t1 tenv ecl tops) =
    ENext (E (M eval_code 14 (RV (VPtr (List.length (d_heap d)))) t0 cp ac sfp stk cc env vc vals (Data (d_heap d ++ [COther 0]) (d_clos d) (d_cells d) (d_glob d) (d_envs d ++ [[]]))) t1 tenv ((List.length (d_heap d), Clo c (List.length (d_envs d)) []) :: ecl) tops).
  Proof. intros. erewrite step_at; [|reflexivity|reflexivity|rewrite eval_instrs_are; reflexivity]. cbn [eexec e_m m_r0 m_data]. rewrite H. reflexivity. Qed.
  Lemma s14 (r0 : rval) (t0 : rval) (cp : rval) (ac : nat) (sfp : nat) (stk : nat -> slot) (cc : list cont) (env : nat) (vc : nat) (vals : list val) (d : data) (t1 : rval) (tenv : val) (ecl : list (nat * mclo)) (tops : list nat) : 
    estep (E (M eval_code 14 r0 t0 cp ac sfp stk cc env vc vals d) t1 tenv ecl tops) =
    ENext (E (M eval_code 15 r0 t0 (RV VVoid) 0 (sfp + (1 + ac)) (upd_stk (sfp + (1 + ac)) (SRa (Some (eval_code, 17))) stk) (Cont env sfp cp ac :: cc) env vc vals d) t1 tenv ecl tops).
  Proof. intros. erewrite step_at; [|reflexivity|reflexivity|rewrite eval_instrs_are; reflexivity]. reflexivity. Qed.
  Lemma s15 (t0 : rval) (cp : rval) (ac : nat) (sfp : nat) (stk : nat -> slot) (cc : list cont) (env : nat) (vc : nat) (vals : list val) (d : data) (t1 : rval) (tenv : val) (ecl : list (nat * mclo)) (tops : list nat) v : 
    estep (E (M eval_code 15 (RV v) t0 cp ac sfp stk cc env vc vals d) t1 tenv ecl tops) =
    ENext (E (M eval_code 16 (RV v) t0 (RV v) ac sfp stk cc env vc vals d) t1 tenv ecl tops).
  Proof. intros. erewrite step_at; [|reflexivity|reflexivity|rewrite eval_instrs_are; reflexivity]. reflexivity. Qed.
  Lemma s16 (r0 : rval) (t0 : rval) (ac : nat) (sfp : nat) (stk : nat -> slot) (cc : list cont) (env : nat) (vc : nat) (vals : list val) (d : data) (t1 : rval) (tenv : val) (ecl : list (nat * mclo)) (tops : list nat) l c : clo_ref l (d_clos d) = None -> clo_ref l ecl = Some c ->
    estep (E (M eval_code 16 r0 t0 (RV (VPtr l)) ac sfp stk cc env vc vals d) t1 tenv ecl tops) =
    ENext (E (M (c_code c) 0 r0 t0 (RV (VPtr l)) ac sfp stk cc (c_env c) vc vals d) t1 tenv ecl tops).
  Proof. intros. erewrite step_at; [|reflexivity|reflexivity|rewrite eval_instrs_are; reflexivity]. cbn [eexec e_m]. unfold all_clos, set_data, exec, do_application, clo_at. cbn [m_cp m_data d_clos with_clos e_clos e_m m_code m_pc m_r0 m_t0 m_ac m_sfp m_stk m_cc m_env m_vc m_vals]. rewrite clo_ref_app, H0 by exact H. destruct d; reflexivity. Qed.
  Lemma s17 (r0 : rval) (t0 : rval) (cp : rval) (ac : nat) (sfp : nat) (stk : nat -> slot) (cc : list cont) (env : nat) (vc : nat) (vals : list val) (d : data) (t1 : rval) (tenv : val) (ecl : list (nat * mclo)) (tops : list nat) v : stk (S sfp + 1) = SVal v ->
    estep (E (M eval_code 17 r0 t0 cp ac sfp stk cc env vc vals d) t1 tenv ecl tops) =
    ENext (E (M eval_code 18 r0 (RV v) cp ac sfp stk cc env vc vals d) t1 tenv ecl tops).
  Proof. intros. erewrite step_at; [|reflexivity|reflexivity|rewrite eval_instrs_are; reflexivity]. cbn [eexec on_globals exec e_m m_r0 m_stk m_sfp]. rewrite H. reflexivity. Qed.
  Lemma s18 (r0 : rval) (cp : rval) (ac : nat) (sfp : nat) (stk : nat -> slot) (cc : list cont) (env : nat) (vc : nat) (vals : list val) (d : data) (t1 : rval) (tenv : val) (ecl : list (nat * mclo)) (tops : list nat) w : 
    estep (E (M eval_code 18 r0 (RV w) cp ac sfp stk cc env vc vals d) t1 tenv ecl tops) =
    ENext (E (M eval_code 19 r0 (RV w) cp ac sfp stk cc env vc vals d) t1 w ecl tops).
  Proof. intros. erewrite step_at; [|reflexivity|reflexivity|rewrite eval_instrs_are; reflexivity]. reflexivity. Qed.
  Lemma s20 (r0 : rval) (t0 : rval) (ac : nat) (sfp : nat) (stk : nat -> slot) (cc : list cont) (env : nat) (vc : nat) (vals : list val) (d : data) (t1 : rval) (tenv : val) (ecl : list (nat * mclo)) (tops : list nat) v : 
    estep (E (M eval_code 20 r0 t0 (RV v) ac sfp stk cc env vc vals d) t1 tenv ecl tops) =
    EFail (ErrArity v ac) (E (M eval_code 20 r0 t0 (RV v) ac sfp stk cc env vc vals d) t1 tenv ecl tops).
  Proof. intros. erewrite step_at; [|reflexivity|reflexivity|rewrite eval_instrs_are; reflexivity]. reflexivity. Qed.

  Ltac go l := eapply ErStep; [apply l|].
  Lemma one_argument s v c : eval_called s [v] -> cmp (d_heap (m_data (e_m s))) v = Some c ->
    exists s1, ereaches s s1 /\ begins c s s1 /\ same_frame s s1 /\ (forall i, m_stk (e_m s1) i = m_stk (e_m s) i) /\ e_tenv s1 = e_tenv s.
  Proof.
    destruct s as [[co pc r0 t0 cp ac sfp stk cc env vc vals d] t1 tenv ecl tops].
    intros [C1 C2 C3 C4 C5] CM. cbn [e_m m_code m_pc m_ac m_stk m_sfp m_data List.length] in *. subst co pc ac. assert (A0 := C4 0 v eq_refl). rewrite Nat.add_0_r in A0.
    assert (Q : clo_ref (List.length (d_heap d)) (d_clos d) = None).
    { destruct (clo_ref (List.length (d_heap d)) (d_clos d)) eqn:Q; auto. apply C5 in Q. lia. }
    eexists. split.
    - go s0. go s1. go s2; [exact A0|]. go s3; [exact CM|]. go s4. go s5. go s6; [exact Q|cbn [clo_ref]; rewrite Nat.eqb_refl; reflexivity|]. apply ErRefl.
    - cbn [c_code c_env]. split; [constructor; cbn; auto|]. { rewrite nth_error_app2, Nat.sub_diag; auto. } split; [split; [|split]; cbn; auto|]. cbn. auto.
  Qed.

  (** With two arguments the code runs in a frame of its own, above that of [eval], and in
      the environment given; when it returns, so does [eval]. *)
  Lemma two_arguments s v w c : eval_called s [v; w] -> cmp (d_heap (m_data (e_m s))) v = Some c ->
    exists s1, ereaches s s1 /\ begins c s s1 /\ e_tenv s1 = w /\
      forall s2, ereaches s1 s2 -> about_to_return s1 s2 ->
        exists s3, ereaches s s3 /\ about_to_return s s3 /\ same_result s2 s3 /\ e_tenv s3 = v.
  Proof.
    destruct s as [[co pc r0 t0 cp ac sfp stk cc env vc vals d] t1 tenv ecl tops].
    intros [C1 C2 C3 C4 C5] CM. cbn [e_m m_code m_pc m_ac m_stk m_sfp m_data List.length] in *. subst co pc ac. assert (A0 := C4 0 v eq_refl). rewrite Nat.add_0_r in A0.
    assert (A1 := C4 1 w eq_refl).
    assert (Q : clo_ref (List.length (d_heap d)) (d_clos d) = None).
    { destruct (clo_ref (List.length (d_heap d)) (d_clos d)) eqn:Q; auto. apply C5 in Q. lia. }
    eexists. split; [|split; [|split]].
    - go s0. go s1n; [lia|]. go s7. go s8; [exact A0|]. go s9; [exact A1|]. go s10. go s11. go s12. go s13; [exact CM|]. go s14. go s15.
      go s16; [exact Q|cbn [clo_ref]; rewrite Nat.eqb_refl; reflexivity|]. apply ErRefl.
    - cbn [c_code c_env]. constructor; cbn; auto. rewrite nth_error_app2, Nat.sub_diag; auto.
    - reflexivity.
    - intros s2 R [[F1 [F2 F3]] F4]. destruct s2 as [[co2 pc2 r2 t2 cp2 ac2 sfp2 stk2 cc2 env2 vc2 vals2 d2] t12 tenv2 ecl2 tops2].
      cbn [e_m m_sfp m_cc m_stk] in *. subst sfp2 cc2.
      assert (K : forall i, i <= sfp + (1 + 2) -> stk2 i = upd_stk (sfp + (1 + 2)) (SRa (Some (eval_code, 17))) (upd_stk (S sfp + 1) (SVal v) stk) i) by auto.
      eexists. split; [|split; [|split]].
      + eapply ereaches_trans; [|eapply ereaches_trans; [exact R|]].
        * go s0. go s1n; [lia|]. go s7. go s8; [exact A0|]. go s9; [exact A1|]. go s10. go s11. go s12. go s13; [exact CM|]. go s14. go s15.
          go s16; [exact Q|cbn [clo_ref]; rewrite Nat.eqb_refl; reflexivity|]. apply ErRefl.
        * eapply ErStep.
          { unfold EvalPrim.estep. cbn [e_m]. rewrite F4. cbn [eexec on_globals exec e_m m_sfp m_stk m_cc].
            destruct (Nat.eqb_spec (sfp + (1 + 2)) 0); [lia|]. rewrite K by lia. unfold upd_stk at 1. rewrite Nat.eqb_refl. cbn [lift with_m k_cp k_ac k_sfp k_env e_t1 e_tenv e_clos e_tops m_r0 m_t0 m_vc m_vals m_data]. reflexivity. }
          go s17. { rewrite K by lia. unfold upd_stk. destruct (Nat.eqb_spec (S sfp + 1) (sfp + (1 + 2))); [lia|]. rewrite Nat.eqb_refl. reflexivity. }
          go s18. apply ErRefl.
      + split; [split; [|split]; cbn [e_m m_sfp m_cc m_stk]; auto|].
        * intros i L. rewrite K by lia. unfold upd_stk. destruct (Nat.eqb_spec i (sfp + (1 + 2))); [lia|]. destruct (Nat.eqb_spec i (S sfp + 1)); [lia|auto].
        * unfold fetch. cbn [e_m m_code m_pc eval_code instrs_of]. rewrite eval_instrs_are. reflexivity.
      + repeat split.
      + reflexivity.
  Qed.

  (** ** A machine without [eval] *)
  Lemma qual_ids ids : map (qual 0) ids = ids.
  Proof. induction ids; cbn; congruence. Qed.
  Lemma fetch_instr m i : nth_error (instrs_of (m_code m)) (m_pc m) = Some i -> fetch m = Some (EI i).
  Proof. unfold fetch. intros N. destruct (instrs_of (m_code m)) eqn:E; [destruct (m_pc m); discriminate|]. rewrite N. reflexivity. Qed.

  (** Environments are never lost or renumbered. *)
  Lemma tops_lift s o s' : lift s o = ENext s' -> e_tops s' = e_tops s.
  Proof. destruct o; cbn; intros H; try discriminate. injection H as <-. reflexivity. Qed.
  Lemma tops_exec i s s' : eexec prim cmp cur_env set_env i s = ENext s' -> e_tops s' = e_tops s.
  Proof.
    destruct i as [i|dst|src|j src|]; cbn [eexec].
    - destruct i; cbn [on_globals]; try apply tops_lift; try (destruct (env_number (e_tops s) (e_tenv s)); [apply tops_lift|discriminate]).
      destruct (N.eqb p cur_env); [intros H; injection H as <-; reflexivity|]. destruct (N.eqb p set_env); [|apply tops_lift].
      destruct (m_stk (e_m s) (S (m_sfp (e_m s)))); intros H; try discriminate. injection H as <-. reflexivity.
    - unfold estore. destruct dst; cbn; intros H; try discriminate; injection H as <-; reflexivity.
    - destruct (eload s src) as [[]|]; intros H; try discriminate. injection H as <-. reflexivity.
    - destruct (m_r0 (e_m s)); intros H; try discriminate. injection H as <-. reflexivity.
    - destruct (m_r0 (e_m s)); intros H; try discriminate. destruct (cmp _ _); try discriminate. injection H as <-. reflexivity.
  Qed.
  Lemma tops_reach s s' : ereaches s s' -> e_tops s' = e_tops s.
  Proof.
    induction 1 as [|s s1 s2 S R IH]; auto. rewrite IH. unfold EvalPrim.estep in S. destruct (fetch (e_m s)); [|discriminate]. eapply tops_exec; eauto.
  Qed.
  Hypothesis no_cur : forall vs h, prim cur_env vs h = None.
  Hypothesis no_set : forall vs h, prim set_env vs h = None.

  Lemma set_data_back m d : set_data (set_data m (with_clos (m_data m) d)) (with_clos (with_clos (m_data m) d) (d_clos (m_data m))) = m.
  Proof. destruct m as [? ? ? ? ? ? ? ? ? ? ? ? []]. reflexivity. Qed.

  (** Errors that calling one of [eval]'s closures would give. *)
  Definition about (ecl : list (nat * mclo)) (y : err) : Prop :=
    exists l k, (y = ErrNotProc (VPtr l) \/ y = ErrApply (VPtr l)) /\ clo_ref l ecl = Some k.

  Lemma app_kinds m : match do_application m with Done _ _ => False | _ => True end /\ match do_application m with Raise _ => False | _ => True end.
  Proof. unfold do_application. destruct (m_cp m); auto. destruct (clo_at (RV v) (m_data m)); auto. Qed.
  Lemma app_next m m' cs : do_application m = Next m' ->
    map_m (own_clos (d_clos (m_data m))) (do_application (set_data m (with_clos (m_data m) (d_clos (m_data m) ++ cs)))) = Next m'.
  Proof.
    destruct m as [co pc r0 t0 cp ac sfp stk cc env vc vals [h ks cells gl envs]]. unfold do_application, set_data, with_clos, clo_at. cbn [m_cp m_data d_clos].
    destruct cp as [v| | | |]; try discriminate. destruct v; try discriminate. cbn [d_clos].
    destruct (clo_ref l ks) eqn:Q; [|discriminate]. rewrite (clo_ref_app_some _ _ _ _ Q). intros H. injection H as <-. reflexivity.
  Qed.
  Lemma app_fail m m' cs y : do_application m = Fail y m' -> ~ about cs y ->
    map_m (own_clos (d_clos (m_data m))) (do_application (set_data m (with_clos (m_data m) (d_clos (m_data m) ++ cs)))) = Fail y m'.
  Proof.
    destruct m as [co pc r0 t0 cp ac sfp stk cc env vc vals [h ks cells gl envs]]. unfold do_application, set_data, with_clos, clo_at. cbn [m_cp m_data d_clos].
    destruct cp as [v| | | |]; try discriminate. destruct v; try (intros H _; injection H as <- <-; reflexivity). cbn [d_clos].
    destruct (clo_ref l ks) eqn:Q; [discriminate|]. intros H NA. injection H as <- <-. rewrite clo_ref_app by exact Q.
    destruct (clo_ref l cs) eqn:Q2; [|reflexivity]. destruct NA. eexists l, _. split; [left; reflexivity|exact Q2].
  Qed.

  Lemma simple_step i m t1 tenv ecl tops : env_number tops tenv = Some 0 -> i <> Iapply -> i <> Ido_apply ->
    match exec prim i m with Undef => True | o => eexec prim cmp cur_env set_env (EI i) (E m t1 tenv ecl tops) = lift (E m t1 tenv ecl tops) o end.
  Proof.
    intros Z N1 N2. assert (Q : match exec prim i m with Undef => True | o => o = exec prim i m end) by (destruct (exec prim i m); auto).
    destruct i; try congruence; try (cbn [eexec on_globals e_m e_tops e_tenv]; try rewrite Z; cbn [in_env]; try rewrite qual_ids; destruct (exec prim _ m); auto; fail).
    cbn [eexec e_m]. destruct (N.eqb_spec p cur_env) as [->|]; [|destruct (N.eqb_spec p set_env) as [->|]; [|destruct (exec prim _ m); auto]].
    - cbn [exec]. destruct (6 <? m_ac m); auto. destruct (frame_args m); auto. rewrite no_cur. auto.
    - cbn [exec]. destruct (6 <? m_ac m); auto. destruct (frame_args m); auto. rewrite no_set. auto.
  Qed.

  Lemma apply_step m t1 tenv ecl tops :
    match exec prim Ido_apply m with
    | Undef => True
    | Fail y m' => ~ about ecl y -> eexec prim cmp cur_env set_env (EI Ido_apply) (E m t1 tenv ecl tops) = EFail y (E m' t1 tenv ecl tops)
    | o => eexec prim cmp cur_env set_env (EI Ido_apply) (E m t1 tenv ecl tops) = lift (E m t1 tenv ecl tops) o
    end.
  Proof.
    cbn [exec]. destruct (frame_args m) as [[|g [|a r]]|] eqn:F; auto.
    assert (EE : eexec prim cmp cur_env set_env (EI Ido_apply) (E m t1 tenv ecl tops) =
                 lift (E m t1 tenv ecl tops) (map_m (own_clos (d_clos (m_data m))) (exec prim Ido_apply (all_clos (E m t1 tenv ecl tops) m)))) by reflexivity.
    set (m' := set_cp m (RV g) (m_ac m)) in *.
    assert (FA : frame_args (all_clos (E m t1 tenv ecl tops) m) = Some (g :: a :: r)) by (rewrite <- F; reflexivity).
    destruct (clo_at (RV g) (m_data m)) as [k|] eqn:K.
    - assert (K' : clo_at (RV g) (m_data (all_clos (E m t1 tenv ecl tops) m)) = Some k).
      { unfold clo_at in *. destruct g; try discriminate. unfold all_clos, set_data, with_clos. cbn [m_data d_clos e_clos]. apply clo_ref_app_some. exact K. }
      destruct (read_list (List.length (d_heap (m_data m))) (d_heap (m_data m)) (last (a :: r) VNull)) as [[xs|]|] eqn:L; auto.
      + set (m2 := set_stack m' (push_all (push_all (m_stk m) (S (m_sfp m)) (removelast (a :: r))) (S (m_sfp m) + List.length (removelast (a :: r))) xs) (List.length (removelast (a :: r)) + List.length xs)).
        assert (X : exec prim Ido_apply (all_clos (E m t1 tenv ecl tops) m) = do_application (set_data m2 (with_clos (m_data m2) (d_clos (m_data m2) ++ ecl)))).
        { unfold exec. rewrite FA, K'. change (d_heap (m_data (all_clos (E m t1 tenv ecl tops) m))) with (d_heap (m_data m)). rewrite L. reflexivity. }
        rewrite EE, X. change (d_clos (m_data m)) with (d_clos (m_data m2)).
        change (do_application (set_stack m' _ _)) with (do_application m2).
        destruct (do_application m2) as [m3|r3 m3|y m3|m3|] eqn:D; auto.
        * rewrite (app_next _ _ ecl D). reflexivity.
        * destruct (app_kinds m2) as [K1 K2]; rewrite D in *; contradiction.
        * intros NA. rewrite (app_fail _ _ ecl _ D NA). reflexivity.
        * destruct (app_kinds m2) as [K1 K2]; rewrite D in *; contradiction.
      + intros _. rewrite EE. unfold exec. rewrite FA, K'. change (d_heap (m_data (all_clos (E m t1 tenv ecl tops) m))) with (d_heap (m_data m)). rewrite L.
        destruct m as [? ? ? ? ? ? ? ? ? ? ? ? []]. reflexivity.
    - intros NA. rewrite EE. unfold exec. rewrite FA.
      assert (K' : clo_at (RV g) (m_data (all_clos (E m t1 tenv ecl tops) m)) = None).
      { unfold clo_at in *. destruct g; auto. unfold all_clos, set_data, with_clos. cbn [m_data d_clos e_clos]. rewrite clo_ref_app by exact K.
        destruct (clo_ref l ecl) eqn:Q; auto. destruct NA. eexists l, _. split; [right; reflexivity|exact Q]. }
      rewrite K'. destruct m as [? ? ? ? ? ? ? ? ? ? ? ? []]. reflexivity.
  Qed.

  Lemma lift_step m t1 tenv ecl tops : env_number tops tenv = Some 0 ->
    match step prim m with
    | Undef => True
    | Fail y m' => ~ about ecl y -> estep (E m t1 tenv ecl tops) = EFail y (E m' t1 tenv ecl tops)
    | o => estep (E m t1 tenv ecl tops) = lift (E m t1 tenv ecl tops) o
    end.
  Proof.
    intros Z. unfold Vm.step, EvalPrim.estep. destruct (nth_error (instrs_of (m_code m)) (m_pc m)) as [i|] eqn:N; auto.
    cbn [e_m]. rewrite (fetch_instr _ _ N). assert (S := simple_step i m t1 tenv ecl tops Z).
    assert (P : (i = Iapply \/ i = Ido_apply) \/ (i <> Iapply /\ i <> Ido_apply)) by (destruct i; try (right; split; discriminate); auto).
    destruct P as [[-> | ->] | [P1 P2]].
    - clear S. cbn [exec]. assert (EE : eexec prim cmp cur_env set_env (EI Iapply) (E m t1 tenv ecl tops) =
        lift (E m t1 tenv ecl tops) (map_m (own_clos (d_clos (m_data m))) (do_application (set_data m (with_clos (m_data m) (d_clos (m_data m) ++ ecl)))))) by reflexivity.
      rewrite EE. destruct (do_application m) as [m3|r3 m3|y m3|m3|] eqn:D; auto.
      + rewrite (app_next _ _ ecl D). reflexivity.
      + destruct (app_kinds m) as [K1 K2]; rewrite D in *; contradiction.
      + intros NA. rewrite (app_fail _ _ ecl _ D NA). reflexivity.
      + destruct (app_kinds m) as [K1 K2]; rewrite D in *; contradiction.
    - apply apply_step.
    - specialize (S P1 P2). destruct (exec prim i m); auto.
  Qed.
  Lemma lift_reaches m m' t1 tenv ecl tops : env_number tops tenv = Some 0 -> reaches prim m m' -> ereaches (E m t1 tenv ecl tops) (E m' t1 tenv ecl tops).
  Proof.
    intros Z. induction 1 as [m|m m1 m2 S R IH]; [constructor|]. eapply ErStep; [|exact IH].
    assert (L := lift_step m t1 tenv ecl tops Z). rewrite S in L. exact L.
  Qed.

  (** ** The code of an expression, run in any frame *)
  Lemma top_at e c m s x s' sl :
    compile_top e = Some c -> wf false true e = true -> m_code m = c -> m_pc m = 0 -> m_ac m = 0 -> nth_error (d_envs (m_data m)) (m_env m) = Some sl ->
    drel s (m_data m) -> eval prim true [] s e x s' ->
    match x with RVals vs => exists m', ret prim m vs s' m' | RErr y => fails prim m y s' end.
  Proof.
    intros CT W MC MP MA NE R EV. destruct (top_inv _ _ CT) as [its [cs [P' [reloc [C [RR WC]]]]]].
    destruct (top_assembled _ _ _ C) as [AS RO].
    assert (PL : placed (m_code m) (tmpls cs) (top_items e its)) by (rewrite MC; eapply placed_of; eauto).
    assert (EO : forall sl d', env_ok true [] [] sl d') by (intros sl' d'; split; [discriminate|]; intros _ y; split; reflexivity).
    assert (X : exists m1, reaches prim m m1 /\ placed (m_code m1) (tmpls cs) (top_items e its) /\ here (top_items e its) (m_pc m1) its /\
      ctx true true [] (List.length (bound_vars e)) [] s m1 /\ m_sfp m1 = m_sfp m /\ m_cc m1 = m_cc m /\ m_stk m1 = m_stk m /\ grows (m_data m) (m_data m1) /\
      (forall j, j < List.length (d_envs (m_data m)) -> j <> m_env m -> j <> m_env m1 /\ nth_error (d_envs (m_data m1)) j = nth_error (d_envs (m_data m)) j)).
    { unfold top_items in *. destruct (bound_vars e) as [|b br] eqn:EB.
      - exists m. split; [constructor|]. split; auto. split; [rewrite MP; apply here_start|]. split; [|auto 10 using grows_refl].
        constructor; auto. exists sl. split; auto. simpl. split; auto. lia.
      - set (sl' := repeat (@None cref) (List.length (b :: br))).
        assert (F : nth_error (instrs_of (m_code m)) (m_pc m) = Some (Ipush_env (List.length (b :: br)))).
        { eapply here_plain; [exact PL|rewrite MP; exact (here_start _)|reflexivity]. }
        destruct (drel_envs _ (m_data m) (d_envs (m_data m) ++ [sl']) R) as [R' G]; [rewrite app_length; lia|].
        eexists. split; [eapply one; [exact F|cbn [exec]; reflexivity]|]. split; [exact PL|].
        split; [cbn [m_pc goto]; rewrite MP; apply (here_ins _ 0 _ _ (here_start _))|]. split.
        + constructor; [|exact R'|auto]. exists sl'. split; [simpl; apply nth_snoc_eq|]. split; [unfold sl'; rewrite repeat_length; simpl; lia|auto].
        + split; [reflexivity|]. split; [reflexivity|]. split; [reflexivity|]. split; [exact G|]. intros j J1 J2. cbn. split; [lia|]. apply nth_error_app1. exact J1. }
    destruct X as [m1 [R1 [PL1 [H1 [CX1 [SF [CC [ST [G1 EN]]]]]]]]].
    assert (S := proj1 (simulation prim) _ _ _ _ _ _ EV).
    assert (D := S (tmpls cs) (top_items e its) [] true true _ _ _ m1 PL1 C (ex_intro _ [] eq_refl) H1 W (fun _ => eq_refl) (closed_top _ _) CX1).
    destruct x as [vs|y]; simpl in D.
    - destruct D as [m' [B1 B2 B3 B4 B5 B6 B7 B8 B9]]. exists m'. constructor; auto; try congruence.
      + eapply reaches_trans; eauto.
      + intros i L. rewrite B7, ST; auto. rewrite SF. auto.
      + intros j J1 J2. destruct (EN _ J1 J2) as [J3 J4]. rewrite B8, J4; auto. apply (Nat.lt_le_trans _ _ _ J1). apply G1.
      + eapply grows_trans; eauto.
    - destruct D as [m2 [m3 [B1 B2]]]. exists m2, m3. split; auto. eapply reaches_trans; eauto.
  Qed.
End Eval.

(** ** Theorems *)

(** With one argument [eval] is replaced by the code of the expression: same frame, same
    continuation, same top-level environment. *)
Theorem C76_one_argument : forall prim cmp cur set s v c,
  eval_called s [v] -> cmp (d_heap (m_data (e_m s))) v = Some c ->
  exists s1, ereaches prim cmp cur set s s1 /\ begins c s s1 /\ same_frame s s1 /\ e_tenv s1 = e_tenv s.
Proof.
  intros prim cmp cur set s v c C M. destruct (one_argument prim cmp cur set s v c C M) as (s1 & R & B & F & _ & T). eauto 6.
Qed.
(** With two arguments the code runs in the environment given, and [eval] returns what it
    returns.  Missing: the caller's environment (refuted below). *)
Theorem C76_two_arguments_partial : forall prim cmp cur set s v w c,
  eval_called s [v; w] -> cmp (d_heap (m_data (e_m s))) v = Some c ->
  exists s1, ereaches prim cmp cur set s s1 /\ begins c s s1 /\ e_tenv s1 = w /\
    forall s2, ereaches prim cmp cur set s1 s2 -> about_to_return s1 s2 ->
      exists s3, ereaches prim cmp cur set s s3 /\ about_to_return s s3 /\ same_result s2 s3.
Proof.
  intros prim cmp cur set s v w c C M. destruct (two_arguments prim cmp cur set s v w c C M) as (s1 & R & B & T & K).
  exists s1. split; auto. split; auto. split; auto. intros s2 R2 A. destruct (K s2 R2 A) as (s3 & ? & ? & ? & _). eauto.
Qed.
(** After that the environment of the thread is the expression, whatever it was before; if
    the expression is no environment, the next use of a global variable is undefined. *)
Theorem C76_environment_refuted : forall prim cmp cur set s v w c,
  eval_called s [v; w] -> cmp (d_heap (m_data (e_m s))) v = Some c ->
  exists s1, ereaches prim cmp cur set s s1 /\ begins c s s1 /\
    forall s2, ereaches prim cmp cur set s1 s2 -> about_to_return s1 s2 ->
      exists s3, ereaches prim cmp cur set s s3 /\ about_to_return s s3 /\ same_result s2 s3 /\ e_tenv s3 = v /\
        (env_number (e_tops s) v = None -> forall s4 i, e_tenv s4 = e_tenv s3 -> e_tops s4 = e_tops s3 ->
           fetch (e_m s4) = Some (EI i) -> on_globals i = true -> estep prim cmp cur set s4 = EUndef).
Proof.
  intros prim cmp cur set s v w c C M. destruct (two_arguments prim cmp cur set s v w c C M) as (s1 & R & B & T & K).
  exists s1. split; auto. split; auto. intros s2 R2 A. destruct (K s2 R2 A) as (s3 & R3 & A3 & SR & TE).
  exists s3. split; auto. split; auto. split; auto. split; auto. intros NE s4 i T4 O4 F4 G.
  unfold estep. rewrite F4. assert (OT : env_number (e_tops s4) (e_tenv s4) = None) by (rewrite T4, TE, O4, (tops_reach _ _ _ _ _ _ R3); exact NE).
  destruct i; try discriminate G; cbn [eexec on_globals]; rewrite OT; reflexivity.
Qed.
(** Any other number of arguments is an error that names [eval] and their number. *)
Theorem C76_arity : forall prim cmp cur set s vs f,
  eval_called s vs -> m_cp (e_m s) = RV f -> List.length vs <> 1 -> List.length vs <> 2 ->
  exists s1 s2, ereaches prim cmp cur set s s1 /\ estep prim cmp cur set s1 = EFail (ErrArity f (List.length vs)) s2 /\
    m_data (e_m s2) = m_data (e_m s) /\ e_tenv s2 = e_tenv s.
Proof.
  intros prim cmp cur set s vs f.
  destruct s as [[co pc r0 t0 cp ac sfp stk cc env vc vals d] t1 tenv ecl tops]. intros [C1 C2 C3 _ _] F N1 N2. cbn [e_m m_code m_pc m_ac m_cp] in *. subst co pc cp. rewrite <- C3 in *.
  eexists _, _. split; [|split; [apply s20|split; reflexivity]].
  eapply ErStep; [apply s0|]. eapply ErStep; [apply s1n; exact N1|]. eapply ErStep; [apply s7n; exact N2|]. apply ErRefl.
Qed.

(** *** What the expression means *)

(** The store with the procedure that runs the expression. *)
Definition one_more (st : store) : store := Store (heap_of st ++ [COther 0]) (procs_of st) (cells_of st) (glob_of st).
(** The expression that [v] denotes, optimised. *)
Definition optimised (h : heap) (v : val) (f n : nat) (e : expr) : Prop :=
  exists e0 n', denotes h v e0 /\ optimize f n e0 = Some (e, n').
Lemma compiled_value g f n h v c e : compile_value g f n h v = Some c -> optimised h v f n e -> compile_top e = Some c.
Proof.
  unfold compile_value. intros K (e0 & n' & D & O). destruct (hparse h g v) as [e1| | |] eqn:P; try discriminate.
  destruct (proj1 (denotes_parses h) v e0 D) as [f0 Q]. specialize (Q f0 (le_n _)). assert (e1 = e0) by (eapply hparse_fun; eauto). subst. rewrite O in K. exact K.
Qed.
Lemma drel_begins c s s1 st : begins c s s1 -> drel st (m_data (e_m s)) -> drel (one_more st) (m_data (e_m s1)).
Proof.
  intros B R. apply (drel_of st (m_data (e_m s))); auto; cbn [one_more heap_of cells_of glob_of procs_of].
  - rewrite (bg_heap _ _ _ B), (dr_heap _ _ R). reflexivity.
  - rewrite (bg_cells _ _ _ B), (dr_cells _ _ R). reflexivity.
  - rewrite (bg_glob _ _ _ B). apply R.
  - apply B.
  - constructor; [rewrite (bg_cells _ _ _ B); auto|rewrite (bg_glob _ _ _ B); auto|]. rewrite (bg_envs _ _ _ B), app_length. lia.
Qed.
Lemma run_value prim cmp cur set e c s s1 st vs st' :
  (forall ws h, prim cur ws h = None) -> (forall ws h, prim set ws h = None) ->
  begins c s s1 -> compile_top e = Some c -> wf false true e = true -> env_number (e_tops s1) (e_tenv s1) = Some 0 ->
  drel st (m_data (e_m s)) -> eval prim true [] (one_more st) e (RVals vs) st' ->
  exists s2, ereaches prim cmp cur set s1 s2 /\ about_to_return s1 s2 /\ result_vals (e_m s2) = Some vs /\ drel st' (m_data (e_m s2)) /\ e_tenv s2 = e_tenv s1.
Proof.
  intros P1 P2 B CT W Z R EV. destruct (top_at prim e c (e_m s1) (one_more st) (RVals vs) st' [] CT W (bg_code _ _ _ B) (bg_pc _ _ _ B) (bg_ac _ _ _ B) (bg_env _ _ _ B) (drel_begins _ _ _ _ B R) EV)
    as [m' [B1 B2 B3 B4 B5 B6 B7 B8 B9]].
  destruct s1 as [m t1 tenv ecl tops]. cbn [e_m e_tenv e_tops] in *. exists (E m' t1 tenv ecl tops). split; [apply lift_reaches; auto|].
  split; [split; [split; auto|apply fetch_instr; exact B2]|]. split; [apply res_vals; auto|]. auto.
Qed.

(** In the initial environment (number 0), [eval] of a value that denotes an expression
    returns the values of the expression, optimised, and leaves the store as it does.  The
    expression does not itself call [eval], $current-environment or
    $current-environment-set!: these are not procedures of [st] and no primitives of [prim].
    Missing: other environments; expressions that call [eval]. *)
Theorem C76_meaning_partial : forall prim cur set g f n s args v c e st vs st',
  (forall ws h, prim cur ws h = None) -> (forall ws h, prim set ws h = None) ->
  (args = [v] /\ env_number (e_tops s) (e_tenv s) = Some 0 \/ exists w, args = [v; w] /\ env_number (e_tops s) w = Some 0) ->
  eval_called s args -> compile_value g f n (d_heap (m_data (e_m s))) v = Some c ->
  optimised (d_heap (m_data (e_m s))) v f n e -> wf false true e = true ->
  drel st (m_data (e_m s)) -> eval prim true [] (one_more st) e (RVals vs) st' ->
  exists s', ereaches prim (compile_value g f n) cur set s s' /\ about_to_return s s' /\ result_vals (e_m s') = Some vs /\ drel st' (m_data (e_m s')).
Proof.
  intros prim cur set g f n s args v c e st vs st' P1 P2 A C CV O W R EV. assert (CT := compiled_value _ _ _ _ _ _ _ CV O).
  destruct A as [[-> Z] | [w [-> Z]]].
  - destruct (one_argument prim (compile_value g f n) cur set s v c C CV) as (s1 & R1 & B & F & _ & T).
    destruct (run_value prim (compile_value g f n) cur set e c s s1 st vs st' P1 P2 B CT W) as (s2 & R2 & A2 & V2 & D2 & _); auto; [rewrite T, (bg_tops _ _ _ B); exact Z|].
    exists s2. split; [eapply ereaches_trans; eauto|]. split; auto. destruct A2 as [[A1 [A2 A3]] A4]. destruct F as [F1 [F2 F3]].
    split; auto. split; [congruence|]. split; [congruence|]. intros i L. rewrite A3, F3; auto. rewrite F1. exact L.
  - destruct (two_arguments prim (compile_value g f n) cur set s v w c C CV) as (s1 & R1 & B & T & K).
    destruct (run_value prim (compile_value g f n) cur set e c s s1 st vs st' P1 P2 B CT W) as (s2 & R2 & A2 & V2 & D2 & _); auto; [rewrite T, (bg_tops _ _ _ B); exact Z|].
    destruct (K s2 R2 A2) as (s3 & R3 & A3 & (E1 & E2 & E3 & E4 & _) & _). exists s3. split; auto. split; auto. rewrite E4. split; auto.
    unfold result_vals in *. rewrite E1, E2, E3. exact V2.
Qed.
(** ... and if the expression ends with an error, so does the call (other than an error that
    complains of one of [eval]'s own procedures), in the environment that was given. *)
Theorem C76_error_partial : forall prim cur set g f n s args v c e st y st',
  (forall ws h, prim cur ws h = None) -> (forall ws h, prim set ws h = None) ->
  (args = [v] /\ env_number (e_tops s) (e_tenv s) = Some 0 \/ exists w, args = [v; w] /\ env_number (e_tops s) w = Some 0) ->
  eval_called s args -> compile_value g f n (d_heap (m_data (e_m s))) v = Some c ->
  optimised (d_heap (m_data (e_m s))) v f n e -> wf false true e = true ->
  drel st (m_data (e_m s)) -> eval prim true [] (one_more st) e (RErr y) st' ->
  (forall l, y <> ErrNotProc (VPtr l) /\ y <> ErrApply (VPtr l)) ->
  exists s2 s3, ereaches prim (compile_value g f n) cur set s s2 /\ estep prim (compile_value g f n) cur set s2 = EFail y s3 /\
    drel st' (m_data (e_m s3)) /\ Some (e_tenv s3) = match args with [_; w] => Some w | _ => Some (e_tenv s) end.
Proof.
  intros prim cur set g f n s args v c e st y st' P1 P2 A C CV O W R EV NE. assert (CT := compiled_value _ _ _ _ _ _ _ CV O).
  assert (X : exists s1, ereaches prim (compile_value g f n) cur set s s1 /\ begins c s s1 /\ env_number (e_tops s1) (e_tenv s1) = Some 0 /\
     Some (e_tenv s1) = match args with [_; w] => Some w | _ => Some (e_tenv s) end).
  { destruct A as [[-> Z] | [w [-> Z]]].
    - destruct (one_argument prim (compile_value g f n) cur set s v c C CV) as (s1 & R1 & B & F & _ & T). exists s1. rewrite T, (bg_tops _ _ _ B). auto.
    - destruct (two_arguments prim (compile_value g f n) cur set s v w c C CV) as (s1 & R1 & B & T & K). exists s1. rewrite T, (bg_tops _ _ _ B). auto. }
  destruct X as (s1 & R1 & B & Z & T).
  destruct (top_at prim e c (e_m s1) (one_more st) (RErr y) st' [] CT W (bg_code _ _ _ B) (bg_pc _ _ _ B) (bg_ac _ _ _ B) (bg_env _ _ _ B) (drel_begins _ _ _ _ B R) EV) as (m2 & m3 & M1 & M2 & M3).
  destruct s1 as [m t1 tenv ecl tops]. cbn [e_m e_tenv e_tops] in *. exists (E m2 t1 tenv ecl tops), (E m3 t1 tenv ecl tops).
  split; [eapply ereaches_trans; [exact R1|apply lift_reaches; auto]|]. split; [|auto].
  assert (L := lift_step prim (compile_value g f n) cur set P1 P2 m2 t1 tenv ecl tops Z). rewrite M2 in L. apply L.
  intros (l & k & [-> | ->] & _); destruct (NE l); congruence.
Qed.

(** A value that is no list, no symbol and not self-evaluating (the empty list, a procedure)
    has no code. *)
Theorem C76_no_expression : forall g f n h v,
  pair_at h v = None -> (forall x, ~ id_is v x) -> ~ self_evaluating h v -> compile_value g f n h v = None.
Proof.
  intros g f n h v P S E. unfold compile_value. destruct g as [|g]; [reflexivity|]. cbn [hparse]. rewrite P.
  destruct v; try reflexivity; try (destruct (S _ eq_refl)); try (destruct (E Logic.I)).
  cbn in E. destruct (nth_error h l) as [[]|]; try reflexivity; destruct (E Logic.I).
Qed.

(** *** Environments *)
(** The value of the variable [x] of the environment number [k]. *)
Definition var_in (k : nat) (x : ident) (s : est) : option val := glob_ref (qual k x) (d_glob (m_data (e_m s))).

Lemma nuls_inj j : forall k a b, (forall r, a <> String "000"%char r) -> (forall r, b <> String "000"%char r) -> nuls j a = nuls k b -> j = k /\ a = b.
Proof.
  induction j as [|j IH]; intros [|k] a b NA NB H; cbn in H; auto.
  - subst a. edestruct NA. reflexivity.
  - subst b. edestruct NB. reflexivity.
  - injection H as H. destruct (IH _ _ _ NA NB H) as [-> ->]. auto.
Qed.
Lemma gs_inj a : forall b, gs a = gs b -> a = b.
Proof. induction a; intros [|b] H; cbn in H; try discriminate; auto. injection H as H. f_equal; auto. Qed.
Lemma qual_inj j k x y : plain x -> plain y -> qual j x = qual k y -> j = k /\ x = y.
Proof.
  intros PX PY H. destruct j as [|j], k as [|k]; cbn [qual] in H; auto.
  - exfalso. subst x. cbn in PX. apply PX. reflexivity.
  - exfalso. subst y. cbn in PY. apply PY. reflexivity.
  - injection H as H. apply (nuls_inj j k) in H.
    + destruct H as [-> H]. split; auto. destruct x as [a|a], y as [b|b]; try discriminate; injection H as H; try congruence. f_equal. apply gs_inj. exact H.
    + destruct x; discriminate.
    + destruct y; discriminate.
Qed.
Lemma glob_other x y v g : x <> y -> glob_ref x (glob_set y v g) = glob_ref x g.
Proof. intros. rewrite glob_ref_set. destruct (ident_eqb_spec y x); auto. congruence. Qed.
Lemma bind_all_other ids : forall vs d d' x, tl_bind_all d ids vs = Some d' -> ~ In x ids -> glob_ref x (d_glob d') = glob_ref x (d_glob d).
Proof.
  induction ids as [|y ids IH]; intros [|v vs] d d' x H N; try discriminate; [injection H as <-; auto|]. cbn in H.
  rewrite (IH _ _ _ _ H); [|intros Q; apply N; right; exact Q]. cbn. apply glob_other. intros ->. apply N. left. reflexivity.
Qed.
Lemma bind_all_in ids : forall vs d, NoDup ids -> List.length vs = List.length ids ->
  exists d', tl_bind_all d ids vs = Some d' /\ forall i x v, nth_error ids i = Some x -> nth_error vs i = Some v -> glob_ref x (d_glob d') = Some v.
Proof.
  induction ids as [|y ids IH]; intros [|v vs] d N L; try discriminate.
  - exists d. split; auto. intros [|i] x v H; discriminate.
  - inversion N as [|? ? N1 N2]; subst. injection L as L. destruct (IH vs (with_glob d (glob_set y v (d_glob d))) N2 L) as (d' & B & Q).
    exists d'. split; auto. intros [|i] x w H1 H2; cbn in H1, H2; [|eauto]. injection H1 as ->. injection H2 as ->.
    rewrite (bind_all_other _ _ _ _ _ B N1). cbn. rewrite glob_ref_set, ident_eqb_refl. reflexivity.
Qed.
(** A definition at the top level binds its names in the current environment, and changes
    nothing in any other. *)
Theorem C76_define : forall prim cmp cur set s n ids vs k,
  fetch (e_m s) = Some (EI (Itl_bind_values n ids)) -> env_number (e_tops s) (e_tenv s) = Some k ->
  result_vals (e_m s) = Some vs -> List.length vs = n -> List.length ids = n -> NoDup ids -> Forall plain ids ->
  exists s', estep prim cmp cur set s = ENext s' /\ e_tenv s' = e_tenv s /\
    (forall i x v, nth_error ids i = Some x -> nth_error vs i = Some v -> var_in k x s' = Some v) /\
    (forall j y, plain y -> j <> k \/ ~ In y ids -> var_in j y s' = var_in j y s).
Proof.
  intros prim cmp cur set s n ids vs k F K R L1 L2 ND PL. unfold estep. rewrite F. cbn [eexec on_globals]. rewrite K. cbn [in_env exec]. rewrite R, L1, Nat.eqb_refl.
  assert (ND' : NoDup (map (qual k) ids)).
  { clear -ND PL. induction ND as [|x ids N ND IH]; cbn; constructor; inversion PL; subst; auto. intros Q. apply in_map_iff in Q. destruct Q as (y & E & I).
    rewrite Forall_forall in *. destruct (qual_inj k k y x) as [_ ->]; auto. }
  destruct (bind_all_in (map (qual k) ids) vs (m_data (e_m s)) ND') as (d' & B & Q); [rewrite map_length; lia|].
  rewrite B. eexists. split; [reflexivity|]. split; [reflexivity|]. split.
  - intros i x v H1 H2. unfold var_in. cbn. eapply Q; eauto. apply map_nth_error. exact H1.
  - intros j y PY O. unfold var_in. cbn. eapply bind_all_other; [exact B|]. intros I. apply in_map_iff in I. destruct I as (z & E & I).
    rewrite Forall_forall in PL. destruct (qual_inj k j z y) as [<- <-]; auto. destruct O; auto.
Qed.
(** A global variable is looked up in the current environment. *)
Theorem C76_variable : forall prim cmp cur set s x k,
  fetch (e_m s) = Some (EI (Itl_lookup x)) -> env_number (e_tops s) (e_tenv s) = Some k ->
  match var_in k x s with
  | None | Some VUnbound => estep prim cmp cur set s = EFail (ErrInit (qual k x)) s
  | Some v => exists s', estep prim cmp cur set s = ENext s' /\ m_r0 (e_m s') = RV v /\ m_data (e_m s') = m_data (e_m s)
  end.
Proof.
  intros prim cmp cur set s x k F K. unfold estep, var_in. rewrite F. cbn [eexec on_globals]. rewrite K. cbn [in_env exec].
  destruct s as [m t1 tenv ecl tops]. cbn [e_m]. destruct (glob_ref (qual k x) (d_glob (m_data m))) as [v|]; [|reflexivity].
  destruct v; try reflexivity; eexists; (split; [reflexivity|split; reflexivity]).
Qed.

(** set! of a global variable changes it in the current environment and in no other; a
    procedure that refers to a global variable keeps the cell of the current environment. *)
Theorem C76_set : forall prim cmp cur set s x k v u,
  fetch (e_m s) = Some (EI (Itl_rebind x)) -> env_number (e_tops s) (e_tenv s) = Some k -> m_r0 (e_m s) = RV v -> var_in k x s = Some u -> plain x ->
  exists s', estep prim cmp cur set s = ENext s' /\ e_tenv s' = e_tenv s /\ var_in k x s' = Some v /\
    forall j y, plain y -> j <> k \/ y <> x -> var_in j y s' = var_in j y s.
Proof.
  intros prim cmp cur set s x k v u F K R U PX. unfold estep. rewrite F. cbn [eexec on_globals]. rewrite K. cbn [in_env exec]. rewrite R. unfold var_in in *. rewrite U.
  eexists. split; [reflexivity|]. split; [reflexivity|]. cbn. split; [rewrite glob_ref_set, ident_eqb_refl; reflexivity|].
  intros j y PY O. apply glob_other. intros Q. destruct (qual_inj j k y x) as [-> ->]; auto. destruct O; auto.
Qed.
Theorem C76_captured : forall prim cmp cur set s x k,
  fetch (e_m s) = Some (EI (Itl_lookup_cell x)) -> env_number (e_tops s) (e_tenv s) = Some k -> plain x ->
  exists s' c, estep prim cmp cur set s = ENext s' /\ m_r0 (e_m s') = RCell c /\
    option_map snd (cell_val (m_data (e_m s')) c) = Some (match var_in k x s with Some v => v | None => VUnbound end) /\
    (forall j y, plain y -> j <> k \/ y <> x -> var_in j y s' = var_in j y s) /\
    forall v d', cell_set (m_data (e_m s')) c v = Some d' -> glob_ref (qual k x) (d_glob d') = Some v.
Proof.
  intros prim cmp cur set s x k F K PX. unfold estep. rewrite F. cbn [eexec on_globals]. rewrite K. cbn [in_env exec]. unfold var_in.
  destruct s as [m t1 tenv ecl tops]. cbn [e_m]. destruct (glob_ref (qual k x) (d_glob (m_data m))) as [v|] eqn:G; eexists _, _; (split; [reflexivity|]); (split; [reflexivity|]); cbn.
  - rewrite G. cbn. split; auto. split; auto. intros w d' H. injection H as <-. cbn. rewrite glob_ref_set, ident_eqb_refl. reflexivity.
  - rewrite glob_ref_set, ident_eqb_refl. cbn. split; auto. split.
    + intros j y PY O. apply glob_other. intros Q. destruct (qual_inj j k y x) as [-> ->]; auto. destruct O; auto.
    + intros w d' H. injection H as <-. cbn. rewrite glob_ref_set, ident_eqb_refl. reflexivity.
Qed.
(** $current-environment returns the environment of the thread and $current-environment-set!
    makes its argument that environment. *)
Theorem C76_current_environment : forall prim cmp cur set s, cur <> set ->
  (fetch (e_m s) = Some (EI (Iccall cur)) ->
   exists s', estep prim cmp cur set s = ENext s' /\ m_r0 (e_m s') = RV (e_tenv s) /\ e_tenv s' = e_tenv s /\ m_data (e_m s') = m_data (e_m s)) /\
  (forall w, fetch (e_m s) = Some (EI (Iccall set)) -> frame_args (e_m s) = Some [w] ->
   exists s', estep prim cmp cur set s = ENext s' /\ m_r0 (e_m s') = RV VVoid /\ e_tenv s' = w /\ m_data (e_m s') = m_data (e_m s)).
Proof.
  intros prim cmp cur set s N. split.
  - intros F. unfold estep. rewrite F. cbn [eexec]. rewrite N.eqb_refl. eexists. repeat split.
  - intros w F A. unfold estep. rewrite F. cbn [eexec]. destruct (N.eqb_spec set cur); [congruence|]. rewrite N.eqb_refl.
    unfold frame_args in A. destruct (m_ac (e_m s)) as [|[|n']]; cbn in A; try discriminate.
    + destruct (m_stk (e_m s) (S (m_sfp (e_m s)))); try discriminate. injection A as ->. eexists. repeat split.
    + destruct (m_stk (e_m s) (S (m_sfp (e_m s)))); try discriminate. destruct (m_stk (e_m s) (S (S (m_sfp (e_m s))))); try discriminate. destruct (args_from _ _ _); discriminate.
Qed.

(** *** A run: (eval '(if #t 7 8) env) with environments at addresses 0 and 1. *)
Fixpoint erun prim cmp cur set (n : nat) (s : est) : est :=
  match n with
  | O => s
  | S n => match estep prim cmp cur set s with ENext s1 => erun prim cmp cur set n s1 | _ => s end
  end.
Lemma erun_reaches prim cmp cur set n : forall s, ereaches prim cmp cur set s (erun prim cmp cur set n s).
Proof.
  induction n as [|n IH]; intros s; cbn; [constructor|]. destruct (estep prim cmp cur set s) eqn:S; try constructor. eapply ErStep; [exact S|apply IH].
Qed.
Definition ex_heap : heap :=
  [COther 0; COther 0; COther 0; CPair (vsym "if") (VPtr 4); CPair VTrue (VPtr 5); CPair (VFix 7) (VPtr 6); CPair (VFix 8) VNull].
Definition ex_prim (p : N) (vs : list val) (h : heap) : option presult := None.
(** [eval], at address 2, has been called with the expression and the second environment from
    a frame at the bottom of the stack. *)
Definition ex_state : est :=
  E (M eval_code 0 RNull RNull (RV (VPtr 2)) 2 0 (fun i => match i with 1 => SVal (VPtr 3) | 2 => SVal (VPtr 1) | _ => SNone end) [] 0 0 []
       (Data ex_heap [] [] [] [[]])) RNull (VPtr 0) [(2, Clo eval_code 0 [])] [0; 1].
Definition ex_cmp := compile_value 20 20 0.
Example C76_example :
  eval_called ex_state [VPtr 3; VPtr 1] /\ (exists c, ex_cmp ex_heap (VPtr 3) = Some c) /\
  denotes ex_heap (VPtr 3) (EIf (EConst VTrue) (EConst (VFix 7)) (EConst (VFix 8))) /\
  optimised ex_heap (VPtr 3) 20 0 (EIf (EConst VTrue) (EConst (VFix 7)) (EConst (VFix 8))) /\
  drel (Store ex_heap [] [] []) (m_data (e_m ex_state)) /\ env_number (e_tops ex_state) (e_tenv ex_state) = Some 0 /\ env_number (e_tops ex_state) (VPtr 1) = Some 1 /\ env_number (e_tops ex_state) (VPtr 3) = None /\
  (exists s', ereaches ex_prim ex_cmp 0 1 ex_state s' /\ about_to_return ex_state s' /\ m_r0 (e_m s') = RV (VFix 7) /\ e_tenv ex_state = VPtr 0 /\ e_tenv s' = VPtr 3).
Proof.
  assert (D : denotes ex_heap (VPtr 3) (EIf (EConst VTrue) (EConst (VFix 7)) (EConst (VFix 8)))).
  { eapply DnIf; [repeat econstructor|constructor; cbn; auto|constructor; cbn; auto|constructor; cbn; auto]. }
  split; [|split; [|split; [|split; [|split; [|split; [reflexivity|split; [reflexivity|split; [reflexivity|]]]]]]]].
  - constructor; try reflexivity. intros [|[|[|i]]] v H; try discriminate; injection H as <-; reflexivity. discriminate.
  - eexists. vm_compute. reflexivity.
  - exact D.
  - eexists _, _. split; [exact D|]. vm_compute. reflexivity.
  - constructor; try reflexivity; [intros x; cbn; auto|constructor].
  - exists (erun ex_prim ex_cmp 0 1 30 ex_state). split; [apply erun_reaches|]. split; [|split; [|split]; vm_compute; reflexivity].
    split; [split; [|split]|]; [vm_compute; reflexivity|vm_compute; reflexivity| |vm_compute; reflexivity].
    intros i L. assert (i = 0) by (cbn in L; lia). subst i. vm_compute. reflexivity.
Qed.
Print Assumptions C76_one_argument.
Print Assumptions C76_two_arguments_partial.
Print Assumptions C76_environment_refuted.
Print Assumptions C76_arity.
Print Assumptions C76_meaning_partial.
Print Assumptions C76_error_partial.
Print Assumptions C76_define.
Print Assumptions C76_variable.
Print Assumptions C76_no_expression.
Print Assumptions C76_set.
Print Assumptions C76_captured.
Print Assumptions C76_current_environment.
Print Assumptions C76_example.
