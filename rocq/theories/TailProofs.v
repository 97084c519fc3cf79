(** Tail calls: the machine reaches every call in tail position with the frame
    and the continuation it was entered with. *)
From Coq Require Import ZArith NArith Bool Ascii String List Arith Lia.
From Verif Require Import Base Heap HeapM Ast FreeVars Code CodeProofs Compile CompRel CompProofs SlotProofs Sem Vm Sim SimLemmas SimProofs.
Import ListNotations.
Local Open Scope list_scope.

Section Tail.
  Variable prim : N -> list val -> heap -> option presult.

  (** [tcall t r s e f vs s']: the evaluation of [e], in tail position, comes to
      the call of [f] with arguments [vs] that stands for the result of [e]; the
      store is then [s']. *)
  Inductive tcall : bool -> lenv -> store -> expr -> val -> list val -> store -> Prop :=
  | TcApp t r s f es fv s1 vs s2 :
      eval1 prim t r s f (inl fv) s1 -> evargs prim t r s1 es (inl vs) s2 -> tcall t r s (EApp f es) fv vs s2
  | TcMvCall t r s p c vs s1 fv s2 :
      eval prim t r s p (RVals vs) s1 -> eval1 prim t r s1 c (inl fv) s2 -> tcall t r s (EMvCall p c) fv vs s2
  | TcIfTrue t r s a b c v s1 f vs s2 :
      eval prim t r s a (RVals [v]) s1 -> v <> VFalse -> tcall t r s1 b f vs s2 -> tcall t r s (EIf a b c) f vs s2
  | TcIfFalse t r s a b c s1 f vs s2 :
      eval prim t r s a (RVals [VFalse]) s1 -> tcall t r s1 c f vs s2 -> tcall t r s (EIf a b c) f vs s2
  | TcBegin t r s es f vs s1 : tseq t r s es f vs s1 -> tcall t r s (EBegin es) f vs s1
  | TcMvLet t r s e xs body ws s1 f vs s2 :
      eval prim t r s e (RVals ws) s1 -> List.length ws = List.length xs ->
      tcall t (bind_env xs (List.length (cells_of s1)) r) (add_cells ws s1) body f vs s2 ->
      tcall t r s (EMvLet e (Formals xs None) body) f vs s2
  with tseq : bool -> lenv -> store -> list expr -> val -> list val -> store -> Prop :=
  | TsLast t r s e f vs s1 : tcall t r s e f vs s1 -> tseq t r s [e] f vs s1
  | TsCons t r s e e' es ws s1 f vs s2 :
      eval prim t r s e (RVals ws) s1 -> tseq t r s1 (e' :: es) f vs s2 -> tseq t r s (e :: e' :: es) f vs s2.

  (** [tstep s f vs g ws s']: calling [f] with [vs] comes to a tail call of [g]
      with [ws]. *)
  Inductive tstep : store -> val -> list val -> val -> list val -> store -> Prop :=
  | TsClo s f vs cls r fm body r1 s1 g ws s2 :
      proc_at f (procs_of s) = Some (PClo cls r) -> select cls (List.length vs) = Some (fm, body) ->
      bind_clause fm vs r s = (r1, s1) -> tseq false r1 s1 body g ws s2 -> tstep s f vs g ws s2
  | TsApply s f g mid l elems :
      proc_at f (procs_of s) = Some PApply -> proc_at g (procs_of s) <> None -> list_at (heap_of s) l elems ->
      tstep s f (g :: mid ++ [l]) g (mid ++ elems) s.

  (** Any number of tail calls in a row. *)
  Inductive tchain : nat -> store -> val -> list val -> val -> list val -> store -> Prop :=
  | ChNil s f vs : tchain 0 s f vs f vs s
  | ChCons n s f vs g ws s1 h us s2 :
      tstep s f vs g ws s1 -> tchain n s1 g ws h us s2 -> tchain (S n) s f vs h us s2.

  Notation step := (step prim).
  Notation exec := (exec prim).
  Notation reaches := (reaches prim).
  Notation ready := (ready prim).
  Notation arr := (arr prim).

  Definition sim_tcall (t : bool) (r : lenv) (s : store) (e : expr) (f : val) (vs : list val) (s' : store) : Prop :=
    forall T P sc cs its cs' m,
      placed (m_code m) T P -> comp e sc true cs its cs' -> (exists ext, T = ext ++ tmpls cs') -> here P (m_pc m) its ->
      wf (negb t) true e = true -> closed t sc e ->
      ctx t true sc (List.length (bound_vars e)) r s m ->
      exists mA, ready (List.length sc) m f vs s' mA.
  Definition sim_tseq (t : bool) (r : lenv) (s : store) (es : list expr) (f : val) (vs : list val) (s' : store) : Prop :=
    forall T P sc cs its cs' m,
      placed (m_code m) T P -> cseq es sc true cs its cs' -> (exists ext, T = ext ++ tmpls cs') -> here P (m_pc m) its ->
      forallb (wf (negb t) true) es = true -> (forall e, In e es -> closed t sc e) ->
      ctx t true sc (List.length (bound_vars_seq es)) r s m ->
      exists mA, ready (List.length sc) m f vs s' mA.

  Lemma ready_after n n' its m ws s1 m1 f vs s2 mA :
    arr n true its m ws s1 m1 -> ready n' m1 f vs s2 mA -> n <= n' -> ready n m f vs s2 mA.
  Proof.
    intros A [B1 B2 B3 B4 B5 B6 B7 B8 B9] L. destruct A as [A1 A2 A3 A4 A5 A6 A7 A8 A9 A10 A11].
    constructor; auto; try congruence.
    - eapply reaches_trans; eauto.
    - eapply (keeps_trans n n' (m_sfp m) (m_sfp m1)); [eapply keeps_weak; [exact A11|lia|lia]|exact B9|auto|lia|auto].
  Qed.
  Lemma ready_goto n m k f vs s2 mA : reaches m (goto m k) -> ready n (goto m k) f vs s2 mA -> ready n m f vs s2 mA.
  Proof.
    intros R [B1 B2 B3 B4 B5 B6 B7 B8 [K1 K2 K3 K4]]. simpl in *. constructor; auto.
    - eapply reaches_trans; eauto.
    - constructor; auto.
  Qed.

  Lemma sim_e t r s e x s' : eval prim t r s e x s' -> sim_eval prim t r s e x s'.
  Proof. apply (simulation prim). Qed.
  Lemma sim_e1 t r s e x s' : eval1 prim t r s e x s' -> sim_eval1 prim t r s e x s'.
  Proof. apply (simulation prim). Qed.
  Lemma sim_as t r s e x s' : evargs prim t r s e x s' -> sim_args prim t r s e x s'.
  Proof. apply (simulation prim). Qed.

  Lemma tc_app t r s f es fv s1 vs s2 :
    eval1 prim t r s f (inl fv) s1 -> evargs prim t r s1 es (inl vs) s2 -> sim_tcall t r s (EApp f es) fv vs s2.
  Proof.
    intros E1 E2 T P sc cs its cs' m PL CM EX H W CL CX. apply sim_e1 in E1. apply sim_as in E2.
    apply app_wf in W. destruct W as [W1 W2]. rewrite bound_vars_app, app_length in CX.
    inversion CM as [| | | | |? ? ? ? ? ? ? ? ? ? ? ? ? PO| | | | | | | | |? ? ? ? its1 cs1 its2 ? C1 C2|]; subst; [discriminate|].
    exact (app_ready prim t r s f es fv s1 vs s2 T P sc _ _ _ _ _ m [] E1 E2 PL C1 C2 EX H W1 W2 CL CX).
  Qed.
  Lemma tc_mvcall t r s p c vs s1 fv s2 :
    eval prim t r s p (RVals vs) s1 -> eval1 prim t r s1 c (inl fv) s2 -> sim_tcall t r s (EMvCall p c) fv vs s2.
  Proof.
    intros E1 E2 T P sc cs its cs' m PL CM EX H W CL CX. apply sim_e in E1. apply sim_e1 in E2.
    apply mvcall_wf in W. destruct W as [W1 W2]. rewrite mvcall_bound in CX.
    inversion CM as [| | | | |? ? ? ? ? ? ? ? ? ? ? ? ? PO|? ? ? ? its1 cs1 its2 ? C1 C2| | | | | | | | | ]; subst; [discriminate|].
    exact (mvcall_ready prim t r s p c vs s1 (inl fv) s2 T P sc _ _ _ _ _ m [] E1 E2 PL C1 C2 EX H W1 W2 CL CX).
  Qed.
  Lemma tc_if t r s a b c v s1 f vs s2 : eval prim t r s a (RVals [v]) s1 ->
    (v <> VFalse /\ sim_tcall t r s1 b f vs s2 \/ v = VFalse /\ sim_tcall t r s1 c f vs s2) ->
    sim_tcall t r s (EIf a b c) f vs s2.
  Proof.
    intros E1 IH2 T P sc cs its cs' m PL CM EX H W CL CX. apply sim_e in E1.
    apply if_wf in W. destruct W as [Wa [Wb Wc]]. apply if_closed in CL. destruct CL as [Ca [Cb Cc]].
    rewrite if_bound in CX.
    inversion CM as [| | | | |? ? ? ? ? ? ? ? ? ? ? ? ? PO| | | | | | |? ? ? ? ? its1 cs1 its2 cs2 its3 cs3 C1 C2 C3| | |]; subst; [discriminate|].
    destruct (here_app _ _ _ _ H) as [Ha Hb].
    assert (X3 : exists ext, T = ext ++ tmpls cs3) by exact EX.
    assert (X2 : exists ext, T = ext ++ tmpls cs2) by (eapply ext_left; [exact X3|eapply comp_tmpls; eauto]).
    assert (X1 : exists ext, T = ext ++ tmpls cs1) by (eapply ext_left; [exact X2|eapply comp_tmpls; eauto]).
    destruct (E1 T P sc false true _ _ _ m PL C1 X1 Ha Wa ltac:(discriminate) Ca) as [m1 A].
    { eapply ctx_le; eauto. lia. }
    assert (CX1 := ctx_arr _ _ _ _ _ _ _ _ _ _ _ _ CX A).
    rewrite <- (ar_pc _ _ _ _ _ _ _ _ A) in Hb. assert (PL1 : placed (m_code m1) T P) by (rewrite (ar_code _ _ _ _ _ _ _ _ A); auto).
    assert (R0 := ar_res _ _ _ _ _ _ _ _ A). simpl in R0.
    destruct (here_fetch _ _ _ _ _ _ PL1 Hb) as [j [F RT]]. simpl in RT.
    apply (here_app P (m_pc m1) [ins (Ibranchf (labels cs3))]) in Hb. destruct Hb as [_ Hb]. simpl ninstr in Hb.
    destruct (here_app _ _ _ _ Hb) as [H2 H3].
    rewrite (here_labpos _ _ _ _ _ _ PL1 H3) in RT. simpl in RT. injection RT as <-.
    destruct IH2 as [[NV IH2]|[-> IH2]].
    - destruct (IH2 T P sc _ _ _ (goto m1 (m_pc m1 + 1)) PL1 C2 X2 H2 Wb Cb) as [mA RD].
      { eapply ctx_le; [|instantiate (1 := List.length (bound_vars a) + (List.length (bound_vars b) + List.length (bound_vars c))); lia|left; eauto].
        destruct CX1. constructor; auto. }
      exists mA. eapply ready_after; [exact A| |apply le_n]. eapply ready_goto; [|exact RD].
      eapply one; [exact F|]. cbn [Vm.exec]. rewrite R0, Nat.add_1_r. destruct v; try reflexivity. congruence.
    - apply here_lab in H3.
      destruct (IH2 T P sc _ _ _ (goto m1 (m_pc m1 + 1 + ninstr its2)) PL1 C3 X3 H3 Wc Cc) as [mA RD].
      { eapply ctx_le; [|instantiate (1 := List.length (bound_vars a) + (List.length (bound_vars b) + List.length (bound_vars c))); lia|left; eauto].
        destruct CX1. constructor; auto. }
      exists mA. eapply ready_after; [exact A| |apply le_n]. eapply ready_goto; [|exact RD].
      eapply one; [exact F|]. cbn [Vm.exec]. rewrite R0. reflexivity.
  Qed.
  Lemma tc_begin t r s es f vs s1 : sim_tseq t r s es f vs s1 -> sim_tcall t r s (EBegin es) f vs s1.
  Proof.
    intros IH T P sc cs its cs' m PL CM EX H W CL CX. inversion CM; subst; [discriminate|].
    simpl in W. rewrite bound_vars_begin in CX. eapply IH; eauto.
    eapply closed_seq; eauto.
  Qed.
  Lemma tc_mvlet t r s e xs body ws s1 f vs s2 :
    eval prim t r s e (RVals ws) s1 -> List.length ws = List.length xs ->
    sim_tcall t (bind_env xs (List.length (cells_of s1)) r) (add_cells ws s1) body f vs s2 ->
    sim_tcall t r s (EMvLet e (Formals xs None) body) f vs s2.
  Proof.
    intros E0 LV IH2 T P sc cs its cs' m PL CM EX H W CL CX. apply sim_e in E0.
    inversion CM as [| | | | |? ? ? ? ? ? ? ? ? ? ? ? ? PO| | |? ? ? ? ? ? its1 cs1 its2 ? C1 C2| | | | | | | ]; subst; [discriminate|].
    simpl in W. apply andb_true_iff in W. destruct W as [W1 W2]. rewrite mvlet_bound in CX.
    destruct (mvlet_closed _ _ _ _ _ CL) as [CL1 CL2].
    destruct (here_app _ _ _ _ H) as [Ha Hb].
    destruct (E0 T P sc false true _ _ _ m PL C1) as [m1 A]; auto; try discriminate.
    { eapply ext_left; [exact EX|]. eapply comp_tmpls; eauto. }
    { eapply ctx_le; eauto. lia. }
    assert (CX1 := ctx_arr _ _ _ _ _ _ _ _ _ _ _ _ CX A).
    destruct CX1 as [[sl [E1 [E2 E3]]] R C].
    destruct (bind_all_ok xs ws t sc r sl s1 (m_data m1) (m_env m1) LV R E1 ltac:(lia) E3) as [d' [sl' [B [N1 [L1 [EO [R' K]]]]]]].
    assert (F : nth_error (instrs_of (m_code m1)) (m_pc m1) = Some (Ibind_values (List.length sc) (List.length xs) xs)).
    { rewrite (ar_code _ _ _ _ _ _ _ _ A), (ar_pc _ _ _ _ _ _ _ _ A). eapply here_plain; eauto. }
    set (m2 := goto (set_r0 (set_data m1 d') (RV VVoid)) (S (m_pc m1))).
    assert (Q : quiet prim 1 m1 m2).
    { eapply quiet_one; [exact F| | | | | | | | |]; try reflexivity. cbn [Vm.exec].
      rewrite (res_vals _ _ (ar_res _ _ _ _ _ _ _ _ A)). rewrite (proj2 (Nat.eqb_eq _ _) LV), B. reflexivity. }
    assert (A2 : arr (List.length sc) true (its1 ++ [ins (Ibind_values (List.length sc) (List.length xs) xs)]) m [VVoid] (add_cells ws s1) m2).
    { eapply arr_then; [exact A|exact Q|reflexivity|exact R'|exact K]. }
    rewrite app_assoc in H. apply here_app in H. destruct H as [_ Hc].
    assert (PL2 : placed (m_code m2) T P).
    { eapply placed_code; [apply (ar_code _ _ _ _ _ _ _ _ A2)|auto]. }
    destruct (IH2 T P (rev xs ++ sc) _ _ _ m2 PL2 C2) as [mA RD]; auto.
    - rewrite (ar_pc _ _ _ _ _ _ _ _ A2). exact Hc.
    - constructor; auto. exists sl'. split; auto. split; auto. rewrite app_length, rev_length. lia.
    - exists mA. eapply ready_after; [exact A2|exact RD|]. rewrite app_length. lia.
  Qed.
  Lemma ts_last t r s e f vs s1 : sim_tcall t r s e f vs s1 -> sim_tseq t r s [e] f vs s1.
  Proof.
    intros IH1 T P sc cs its cs' m PL CM EX H W CL CX. inversion CM as [|? ? ? ? ? ? C1|]; subst.
    cbn [forallb] in W. apply andb_true_iff in W. destruct W as [W1 W2]. cbn [bound_vars_seq] in CX. rewrite app_nil_r in CX.
    eapply IH1; eauto. apply CL. simpl. auto.
  Qed.
  Lemma ts_cons t r s e e' es ws s1 f vs s2 : eval prim t r s e (RVals ws) s1 -> sim_tseq t r s1 (e' :: es) f vs s2 ->
    sim_tseq t r s (e :: e' :: es) f vs s2.
  Proof.
    intros E1 IH2 T P sc cs its cs' m PL CM EX H W CL CX. apply sim_e in E1. inversion CM as [| |? ? ? ? ? ? its1 cs1 its2 ? C1 C2]; subst.
    cbn [forallb] in W. apply andb_true_iff in W. destruct W as [W1 W2].
    destruct (here_app _ _ _ _ H) as [Ha Hb]. cbn [bound_vars_seq] in CX. rewrite app_length in CX.
    destruct (E1 T P sc false true _ _ _ m PL C1) as [m1 A]; auto; try discriminate.
    { eapply ext_left; [exact EX|]. eapply cseq_tmpls; eauto. }
    { apply CL. simpl. auto. }
    { eapply ctx_le; eauto. lia. }
    assert (PL1 : placed (m_code m1) T P) by (rewrite (ar_code _ _ _ _ _ _ _ _ A); auto).
    destruct (IH2 T P sc _ _ _ m1 PL1 C2) as [mA RD]; auto.
    - rewrite (ar_pc _ _ _ _ _ _ _ _ A). auto.
    - intros b I. apply CL. right. auto.
    - eapply ctx_arr; [|exact A]. eapply ctx_le; eauto. cbn [bound_vars_seq]. rewrite app_length. lia.
    - exists mA. eapply ready_after; eauto.
  Qed.

  Scheme tcall_min := Minimality for tcall Sort Prop with tseq_min := Minimality for tseq Sort Prop.
  Combined Scheme tcall_mins from tcall_min, tseq_min.
  Lemma tail_simulation :
    (forall t r s e f vs s', tcall t r s e f vs s' -> sim_tcall t r s e f vs s') /\
    (forall t r s es f vs s', tseq t r s es f vs s' -> sim_tseq t r s es f vs s').
  Proof.
    apply tcall_mins.
    - intros. eapply tc_app; eauto.
    - intros. eapply tc_mvcall; eauto.
    - intros. eapply tc_if; eauto.
    - intros. eapply tc_if; eauto.
    - intros. apply tc_begin; auto.
    - intros. eapply tc_mvlet; eauto.
    - intros. apply ts_last; auto.
    - intros. eapply ts_cons; eauto.
  Qed.

  (** ** Entering a clause *)
  Record entry (fm : formals) (body : list expr) (r1 : lenv) (s1 : store) (m m6 : mst) (T : list code) (P : list sitem)
         (sc1 : scope) (cs1 : cst) (its1 : list sitem) (cs2 : cst) : Prop := Entry {
    en_run : exists m1, do_application m = Next m1 /\ reaches m1 m6;
    en_placed : placed (m_code m6) T P;
    en_here : here P (m_pc m6) its1;
    en_body : cseq body sc1 true cs1 its1 cs2;
    en_ext : exists ext, T = ext ++ tmpls cs2;
    en_wf : forallb (wf true true) body = true;
    en_closed : forall e, In e body -> closed false sc1 e;
    en_ctx : ctx false true sc1 (List.length (bound_vars_seq body)) r1 s1 m6;
    en_scope : forall x, In x (formals_ids fm) -> scope_ref sc1 x <> None;
    en_sfp : m_sfp m6 = m_sfp m;
    en_cc : m_cc m6 = m_cc m;
    en_stk : m_stk m6 = m_stk m }.

  Lemma enter_clo m s f vs cls r fm body r1 s1 :
    proc_at f (procs_of s) = Some (PClo cls r) -> select cls (List.length vs) = Some (fm, body) ->
    bind_clause fm vs r s = (r1, s1) ->
    m_cp m = RV f -> frame_args m = Some vs -> drel s (m_data m) ->
    exists m6 T P sc1 cs1 its1 cs2, entry fm body r1 s1 m m6 T P sc1 cs1 its1 cs2.
  Proof.
    intros PA SEL BC CP FA R.
    assert (PR := proc_rel_at s (m_data m) f R). rewrite PA in PR. destruct PR as [k [CA [e [CO [WF FR]]]]].
    assert (EN := enter_ok m f k CP CA). set (m1 := entered m k) in *.
    destruct CO as [bounds [s0 [its [l [ar [s3 [its' [reloc [PO [CC [RR WC]]]]]]]]]]].
    assert (NE := proc_cls _ _ _ _ _ _ _ _ _ PO CC).
    destruct (clauses_assembled _ _ _ _ _ _ _ _ NE CC) as [AS _].
    set (P := its ++ [Lab l; ins Ido_arity_error]) in *. set (T := tmpls s3) in *.
    assert (PL : placed (m_code m1) T P) by (eapply placed_of; eauto).
    assert (SZ := proc_size _ _ _ PO).
    assert (LV : m_ac m = List.length vs) by (unfold frame_args in FA; apply args_from_spec in FA; symmetry; apply FA).
    assert (DP := dispatch prim T P (free_vars e) l [] cls bounds None ANull s0 its ar s3 m1 CC PL (here_start P) (or_introl eq_refl) SZ).
    cbn [m1 entered m_ac] in DP. rewrite LV, SEL in DP.
    destruct DP as [pc [binds [sc1 [its1 [cs1 [cs2 [b [R1 [H [BF [CS [EX SZ1]]]]]]]]]]]].
    destruct (select_In _ _ _ SEL) as [INC ACC]. cbn [fst] in ACC.
    set (m2 := counted m1 pc) in *.
    (* push the environment *)
    cbn [app] in H.
    assert (F2 : nth_error (instrs_of (m_code m2)) (m_pc m2) = Some (Ipush_env (List.length (free_vars e) + List.length b))) by (eapply (here_plain (m_code m1)); eauto).
    set (en := List.length (d_envs (m_data m))).
    set (sl0 := repeat (@None cref) (List.length (free_vars e) + List.length b)).
    set (d3 := with_envs (m_data m) (d_envs (m_data m) ++ [sl0])).
    set (m3 := M (m_code m1) (S pc) (m_r0 m2) (m_t0 m) (m_cp m) (m_ac m) (m_sfp m) (m_stk m) (m_cc m) en (m_vc m) (m_vals m) d3).
    assert (R3 : reaches m1 m3) by (eapply reaches_trans; [exact R1|eapply one; [exact F2|reflexivity]]).
    (* bind the free variables *)
    apply here_ins in H.
    assert (F3 : nth_error (instrs_of (m_code m3)) (m_pc m3) = Some Iclosure_bind) by (eapply (here_plain (m_code m1)); eauto).
    assert (N3 : nth_error (d_envs d3) en = Some sl0) by (simpl; apply nth_snoc_eq).
    assert (LFR := Forall2_lgth _ _ _ FR).
    destruct (load_free_ok (c_free k) d3 en 0 sl0 N3) as [d4 [sl4 [LF [D4 [L4 [_ X4]]]]]].
    { unfold sl0. rewrite repeat_length. simpl. lia. }
    set (m4 := goto (set_data m3 d4) (S (S pc))).
    assert (R4 : reaches m1 m4).
    { eapply reaches_trans; [exact R3|]. eapply one; [exact F3|]. cbn [Vm.exec m3 m_cp m_data m_env].
      change (clo_at (m_cp m) d3) with (clo_at (m_cp m) (m_data m)). rewrite CP, CA, LF. reflexivity. }
    assert (G4 : grows (m_data m) d4).
    { subst d4. constructor; simpl; auto. rewrite set_nth_length, app_length. lia. }
    assert (RD4 : drel s d4).
    { eapply (drel_of s (m_data m)); try exact G4; try exact R; subst d4; simpl; auto; apply R. }
    assert (N4 : nth_error (d_envs d4) en = Some sl4).
    { subst d4. simpl. apply set_nth_eq. rewrite app_length. simpl. unfold en. lia. }
    assert (FR4 : Forall2 (fun x o => exists cr, o = Some cr /\ cref_ok x r cr d4) (free_vars e) (c_free k)).
    { eapply Forall2_imp; [|exact FR]. intros a o [cr [-> C]]. exists cr. split; auto. eapply cref_grows; eauto. }
    assert (EO4 : env_ok false (fvs_scope (free_vars e)) r sl4 d4) by (eapply load_env_ok; [exact FR4|exact X4]).
    (* bind the arguments *)
    apply here_ins in H. destruct (here_app _ _ _ _ H) as [Ha Hb].
    assert (LS4 : List.length sl4 = List.length (free_vars e) + List.length b) by (rewrite L4; apply repeat_length).
    assert (LSC : List.length (fvs_scope (free_vars e)) = List.length (free_vars e)) by (unfold fvs_scope; apply rev_length).
    destruct (bind_formals_run prim T P fm (fvs_scope (free_vars e)) binds sc1 vs m4 r sl4 s r1 s1 BF PL Ha FA ACC BC N4) as [m5 [sl5 [Q5 [N5 [L5 [EO5 [R5 [K5 C5]]]]]]]]; auto.
    { lia. }
    (* clear the frame *)
    assert (F5 : nth_error (instrs_of (m_code m5)) (m_pc m5) = Some Iclear_frame).
    { rewrite (q_code _ _ _ _ Q5), (q_pc _ _ _ _ Q5). eapply (here_plain (m_code m1)); eauto. }
    apply here_ins in Hb.
    set (m6 := goto (set_cp m5 RNull 0) (S (m_pc m5))).
    assert (R6 : reaches m1 m6).
    { eapply reaches_trans; [exact R4|]. eapply reaches_trans; [apply Q5|]. eapply one; [exact F5|reflexivity]. }
    assert (LSC1 : List.length sc1 = List.length (free_vars e) + List.length (formals_ids fm)).
    { rewrite (bind_formals_scope _ _ _ _ BF). rewrite !app_length, rev_length. unfold fvs_scope, formals_ids. rewrite rev_length, app_length.
      destruct (rest fm); simpl; lia. }
    exists m6, T, P, sc1, cs1, its1, cs2. constructor; auto.
    - exists m1. auto.
    - eapply placed_code; [|exact PL]. simpl. apply (q_code _ _ _ _ Q5).
    - simpl. rewrite (q_pc _ _ _ _ Q5). exact Hb.
    - simpl. unfold wf_clauses in WF. rewrite forallb_forall in WF. apply (WF _ INC).
    - intros b' Ib _ y Iy. destruct (body_closed e cls bounds fm body b' y PO INC Ib Iy) as [PX|FX].
      + rewrite (bind_formals_scope _ _ _ _ BF). apply formals_ids_param in PX. unfold formals_ids in PX. rewrite in_app_iff in *.
        rewrite in_app_iff. rewrite <- in_rev. tauto.
      + rewrite (bind_formals_scope _ _ _ _ BF). rewrite !in_app_iff. right. right. unfold fvs_scope. rewrite <- in_rev. auto.
    - constructor; auto. exists sl5. split; auto. split; auto. lia.
    - intros y Iy. apply scope_ref_In. rewrite (bind_formals_scope _ _ _ _ BF). unfold formals_ids in Iy. rewrite in_app_iff in *.
      rewrite in_app_iff. rewrite <- in_rev. tauto.
    - simpl. apply (q_sfp _ _ _ _ Q5).
    - simpl. rewrite (q_cc _ _ _ _ Q5). reflexivity.
    - simpl. apply (q_stk _ _ _ _ Q5).
  Qed.
End Tail.
