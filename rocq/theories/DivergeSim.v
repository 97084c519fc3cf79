(** The machine comes to every call the evaluation comes to (Diverge.v), so when
    calls go on for ever the machine does not stop. *)
From Coq Require Import ZArith NArith Bool Ascii String List Arith Lia.
From Verif Require Import Base Heap HeapM Ast FreeVars Code CodeProofs Compile CompRel CompProofs SlotProofs CompThm Sem Vm Sim SimLemmas SimProofs TailProofs SimThm EvalRun Diverge DivergeProofs.
Import ListNotations.
Local Open Scope list_scope.

Section Sim.
  Variable prim : N -> list val -> heap -> option presult.
  Notation step := (step prim).
  Notation reaches := (reaches prim).
  Notation arr := (arr prim).

  (** From state [m] the machine comes to the application of [f] to [vs]. *)
  Definition calls (m : mst) (f : val) (vs : list val) (s : store) : Prop :=
    exists m2 m3, reaches m m2 /\ step m2 = do_application m3 /\ at_call m3 f vs s.
  Lemma calls_after m m1 f vs s : reaches m m1 -> calls m1 f vs s -> calls m f vs s.
  Proof. intros R [m2 [m3 [R2 X]]]. exists m2, m3. split; auto. eapply reaches_trans; eauto. Qed.
  Lemma calls_ready n m f vs s mA : ready prim n m f vs s mA -> calls m f vs s.
  Proof.
    intros [A1 A2 A3 A4 A5 A6 A7 A8 A9]. exists mA, mA. split; auto. split; [rewrite (step_exec _ _ _ A2); reflexivity|].
    split; [|split]; auto.
  Qed.

  Definition sim_ncall (t : bool) (r : lenv) (s : store) (e : expr) (f : val) (vs : list val) (s' : store) : Prop :=
    forall T P sc tl clean cs its cs' m,
      placed (m_code m) T P -> comp e sc tl cs its cs' -> (exists ext, T = ext ++ tmpls cs') -> here P (m_pc m) its ->
      wf (negb t) clean e = true -> (tl = true -> clean = true) -> closed t sc e ->
      ctx t clean sc (List.length (bound_vars e)) r s m ->
      calls m f vs s'.
  Definition sim_nseq (t : bool) (r : lenv) (s : store) (es : list expr) (f : val) (vs : list val) (s' : store) : Prop :=
    forall T P sc tl clean cs its cs' m,
      placed (m_code m) T P -> cseq es sc tl cs its cs' -> (exists ext, T = ext ++ tmpls cs') -> here P (m_pc m) its ->
      forallb (wf (negb t) clean) es = true -> (tl = true -> clean = true) -> (forall e, In e es -> closed t sc e) ->
      ctx t clean sc (List.length (bound_vars_seq es)) r s m ->
      calls m f vs s'.
  Definition sim_nargs (t : bool) (r : lenv) (s : store) (es : list expr) (f : val) (vs : list val) (s' : store) : Prop :=
    forall T P sc cs its cs' m,
      placed (m_code m) T P -> cargs es sc cs its cs' -> (exists ext, T = ext ++ tmpls cs') -> here P (m_pc m) its ->
      forallb (wf (negb t) false) es = true -> (forall e, In e es -> closed t sc e) ->
      ctx t false sc (List.length (bound_vars_seq es)) r s m ->
      calls m f vs s'.

  Lemma n_define t r s ids e f vs s1 : sim_ncall t r s e f vs s1 -> sim_ncall t r s (EDefine ids e) f vs s1.
  Proof.
    intros IH T P sc tl clean cs its cs' m PL CM EX H W TC CL CX. inversion CM; subst; [|discriminate].
    simpl in W. apply andb_true_iff in W. destruct W as [W1 W]. destruct t; [|discriminate].
    assert (H' := here_tail _ _ _ _ H). destruct (here_app _ _ _ _ H') as [Ha Hb].
    apply (IH T P sc false clean _ _ _ m PL ltac:(eassumption) EX Ha W ltac:(discriminate) (closed_top _ _)).
    eapply ctx_le; eauto. simpl. rewrite app_length. lia.
  Qed.
  Lemma n_set t r s x e f vs s1 : sim_ncall t r s e f vs s1 -> sim_ncall t r s (ESet x e) f vs s1.
  Proof.
    intros IH T P sc tl clean cs its cs' m PL CM EX H W TC CL CX. inversion CM; subst; [|discriminate]. simpl in W.
    assert (H' := here_tail _ _ _ _ H). destruct (here_app _ _ _ _ H') as [Ha Hb].
    apply (IH T P sc false clean _ _ _ m PL ltac:(eassumption) EX Ha W ltac:(discriminate)); [|exact CX].
    eapply closed_sub; eauto. apply set_incl.
  Qed.
  Lemma n_seq_next t r s e e' es ws s1 f vs s2 : eval prim t r s e (RVals ws) s1 -> sim_nseq t r s1 (e' :: es) f vs s2 ->
    sim_nseq t r s (e :: e' :: es) f vs s2.
  Proof.
    intros E1 IH2 T P sc tl clean cs its cs' m PL CM EX H W TC CL CX. apply (sim_e prim) in E1.
    inversion CM as [| |? ? ? ? ? ? its1 cs1 its2 ? C1 C2]; subst.
    cbn [forallb] in W. apply andb_true_iff in W. destruct W as [W1 W2].
    destruct (here_app _ _ _ _ H) as [Ha Hb]. cbn [bound_vars_seq] in CX. rewrite app_length in CX.
    destruct (E1 T P sc false clean _ _ _ m PL C1) as [m1 A]; auto.
    { eapply ext_left; [exact EX|]. eapply cseq_tmpls; eauto. }
    { discriminate. }
    { apply CL. simpl. auto. }
    { eapply ctx_le; eauto. lia. }
    eapply calls_after; [apply A|].
    apply (IH2 T P sc tl clean _ _ _ m1) with (2 := C2); auto.
    - rewrite (ar_code _ _ _ _ _ _ _ _ A). auto.
    - rewrite (ar_pc _ _ _ _ _ _ _ _ A). auto.
    - intros b I. apply CL. right. auto.
    - eapply ctx_arr; [|exact A]. eapply ctx_le; eauto. cbn [bound_vars_seq]. rewrite app_length. lia.
  Qed.
  Lemma n_seq_here t r s e es f vs s1 : sim_ncall t r s e f vs s1 -> sim_nseq t r s (e :: es) f vs s1.
  Proof.
    intros IH1 T P sc tl clean cs its cs' m PL CM EX H W TC CL CX.
    inversion CM as [|? ? ? ? ? ? C1|? ? ? ? ? ? its1 cs1 its2 ? C1 C2]; subst.
    - cbn [forallb] in W. apply andb_true_iff in W. destruct W as [W1 W2]. cbn [bound_vars_seq] in CX. rewrite app_nil_r in CX.
      eapply IH1; eauto. apply CL. simpl. auto.
    - cbn [forallb] in W. apply andb_true_iff in W. destruct W as [W1 W2].
      destruct (here_app _ _ _ _ H) as [Ha Hb]. cbn [bound_vars_seq] in CX. rewrite app_length in CX.
      apply (IH1 T P sc false clean _ _ _ m PL C1); auto.
      { eapply ext_left; [exact EX|]. eapply cseq_tmpls; eauto. }
      { discriminate. }
      { apply CL. simpl. auto. }
      { eapply ctx_le; eauto. lia. }
  Qed.
  Lemma n_begin t r s es f vs s1 : sim_nseq t r s es f vs s1 -> sim_ncall t r s (EBegin es) f vs s1.
  Proof.
    intros IH T P sc tl clean cs its cs' m PL CM EX H W TC CL CX. inversion CM; subst; [discriminate|].
    simpl in W. rewrite bound_vars_begin in CX. eapply IH; eauto.
    eapply closed_seq; eauto.
  Qed.
  Lemma n_if_test t r s a b c f vs s1 : sim_ncall t r s a f vs s1 -> sim_ncall t r s (EIf a b c) f vs s1.
  Proof.
    intros IH1 T P sc tl clean cs its cs' m PL CM EX H W TC CL CX.
    apply if_wf in W. destruct W as [Wa [Wb Wc]]. apply if_closed in CL. destruct CL as [Ca [Cb Cc]].
    rewrite if_bound in CX.
    inversion CM as [| | | | |? ? ? ? ? ? ? ? ? ? ? ? ? PO| | | | | | |? ? ? ? ? its1 cs1 its2 cs2 its3 cs3 C1 C2 C3|? ? ? ? ? its1 cs1 its2 cs2 its3 cs3 C1 C2 C3| |]; subst; [discriminate| |].
    all: destruct (here_app _ _ _ _ H) as [Ha Hb];
      assert (X3 : exists ext, T = ext ++ tmpls cs3) by exact EX;
      assert (X2 : exists ext, T = ext ++ tmpls cs2) by (eapply ext_left; [exact X3|eapply comp_tmpls; eauto]);
      assert (X1 : exists ext, T = ext ++ tmpls cs1) by (eapply ext_left; [exact X2|eapply comp_tmpls; eauto]);
      apply (IH1 T P sc false clean _ _ _ m PL C1 X1 Ha Wa ltac:(discriminate) Ca);
      eapply ctx_le; eauto; lia.
  Qed.
  Lemma n_if t r s a b c v s1 f vs s2 : eval prim t r s a (RVals [v]) s1 ->
    (v <> VFalse /\ sim_ncall t r s1 b f vs s2 \/ v = VFalse /\ sim_ncall t r s1 c f vs s2) ->
    sim_ncall t r s (EIf a b c) f vs s2.
  Proof.
    intros E1 IH2 T P sc tl clean cs its cs' m PL CM EX H W TC CL CX. apply (sim_e prim) in E1.
    apply if_wf in W. destruct W as [Wa [Wb Wc]]. apply if_closed in CL. destruct CL as [Ca [Cb Cc]].
    rewrite if_bound in CX.
    inversion CM as [| | | | |? ? ? ? ? ? ? ? ? ? ? ? ? PO| | | | | | |? ? ? ? ? its1 cs1 its2 cs2 its3 cs3 C1 C2 C3|? ? ? ? ? its1 cs1 its2 cs2 its3 cs3 C1 C2 C3| |]; subst; [discriminate| |].
    all: destruct (here_app _ _ _ _ H) as [Ha Hb];
      assert (X3 : exists ext, T = ext ++ tmpls cs3) by exact EX;
      assert (X2 : exists ext, T = ext ++ tmpls cs2) by (eapply ext_left; [exact X3|eapply comp_tmpls; eauto]);
      assert (X1 : exists ext, T = ext ++ tmpls cs1) by (eapply ext_left; [exact X2|eapply comp_tmpls; eauto]);
      (destruct (E1 T P sc false clean _ _ _ m PL C1 X1 Ha Wa ltac:(discriminate) Ca) as [m1 A]; [eapply ctx_le; eauto; lia|]);
      assert (CX1 := ctx_arr _ _ _ _ _ _ _ _ _ _ _ _ CX A);
      rewrite <- (ar_pc _ _ _ _ _ _ _ _ A) in Hb; assert (PL1 : placed (m_code m1) T P) by (rewrite (ar_code _ _ _ _ _ _ _ _ A); auto);
      assert (R0 := ar_res _ _ _ _ _ _ _ _ A); simpl in R0;
      destruct (here_fetch _ _ _ _ _ _ PL1 Hb) as [j [F RT]]; simpl in RT;
      apply (here_app P (m_pc m1) [ins (Ibranchf (labels cs3))]) in Hb; destruct Hb as [_ Hb]; simpl ninstr in Hb;
      destruct (here_app _ _ _ _ Hb) as [H2 H3];
      assert (CXk : forall k, ctx t clean sc (List.length (bound_vars a) + (List.length (bound_vars b) + List.length (bound_vars c))) r s1 (goto m1 k))
        by (intros k; destruct CX1; constructor; auto);
      (eapply calls_after; [apply A|]).
    - rewrite (here_labpos _ _ _ _ _ _ PL1 H3) in RT. simpl in RT. injection RT as <-.
      destruct IH2 as [[NV IH2]|[-> IH2]].
      + eapply (calls_after _ (goto m1 (m_pc m1 + 1))).
        { eapply one; [exact F|]. cbn [Vm.exec]. rewrite R0, Nat.add_1_r. destruct v; try reflexivity. congruence. }
        apply (IH2 T P sc true clean _ _ _ (goto m1 (m_pc m1 + 1)) PL1 C2 X2 H2 Wb TC Cb). eapply ctx_le; [apply CXk|lia|auto].
      + apply here_lab in H3.
        eapply (calls_after _ (goto m1 (m_pc m1 + 1 + ninstr its2))).
        { eapply one; [exact F|]. cbn [Vm.exec]. rewrite R0. reflexivity. }
        apply (IH2 T P sc true clean _ _ _ (goto m1 (m_pc m1 + 1 + ninstr its2)) PL1 C3 X3 H3 Wc TC Cc). eapply ctx_le; [apply CXk|lia|auto].
    - assert (H4 := H3). apply here_ins in H4.
      rewrite (here_labpos _ _ _ _ _ _ PL1 H4) in RT. simpl in RT. injection RT as <-.
      assert (H5 := here_lab _ _ _ _ H4). destruct (here_app _ _ _ _ H5) as [H6 H7].
      destruct IH2 as [[NV IH2]|[-> IH2]].
      + eapply (calls_after _ (goto m1 (m_pc m1 + 1))).
        { eapply one; [exact F|]. cbn [Vm.exec]. rewrite R0, Nat.add_1_r. destruct v; try reflexivity. congruence. }
        apply (IH2 T P sc false clean _ _ _ (goto m1 (m_pc m1 + 1)) PL1 C2 X2 H2 Wb ltac:(discriminate) Cb). eapply ctx_le; [apply CXk|lia|auto].
      + eapply (calls_after _ (goto m1 (S (m_pc m1 + 1 + ninstr its2)))).
        { eapply one; [exact F|]. cbn [Vm.exec]. rewrite R0. reflexivity. }
        apply (IH2 T P sc false clean _ _ _ (goto m1 (S (m_pc m1 + 1 + ninstr its2))) PL1 C3 X3 H6 Wc ltac:(discriminate) Cc). eapply ctx_le; [apply CXk|lia|auto].
  Qed.
  Lemma n_args_here t r s e es f vs s1 : sim_ncall t r s e f vs s1 -> sim_nargs t r s (e :: es) f vs s1.
  Proof.
    intros IH1 T P sc cs its cs' m PL CM EX H W CL CX. inversion CM as [|? ? ? ? its1 cs1 its2 ? C1 C2]; subst.
    cbn [forallb] in W. apply andb_true_iff in W. destruct W as [W1 W2].
    cbn [bound_vars_seq] in CX. rewrite app_length in CX.
    destruct (here_app _ _ _ _ H) as [Ha Hb].
    apply (IH1 T P sc false false _ _ _ m PL C1); auto.
    { eapply ext_left; [exact EX|]. eapply cargs_tmpls; eauto. }
    { apply CL. simpl. auto. }
    { eapply ctx_le; eauto. lia. }
  Qed.
  Lemma n_args_next t r s e es v s1 f vs s2 : eval1 prim t r s e (inl v) s1 -> sim_nargs t r s1 es f vs s2 ->
    sim_nargs t r s (e :: es) f vs s2.
  Proof.
    intros E1 IH2 T P sc cs its cs' m PL CM EX H W CL CX. apply (sim_e1 prim) in E1. inversion CM as [|? ? ? ? its1 cs1 its2 ? C1 C2]; subst.
    cbn [forallb] in W. apply andb_true_iff in W. destruct W as [W1 W2].
    cbn [bound_vars_seq] in CX. rewrite app_length in CX.
    destruct (here_app _ _ _ _ H) as [Ha Hb].
    destruct (E1 T P sc false _ _ _ m PL C1) as [m1 A]; auto.
    { eapply ext_left; [exact EX|]. eapply cargs_tmpls; eauto. }
    { apply CL. simpl. auto. }
    { eapply ctx_le; eauto. lia. }
    assert (CX1 := ctx_arr _ _ _ _ _ _ _ _ _ _ _ _ CX A).
    destruct A as [A1 A2 A3 A4 A5 A6 A7 A8 A9 A10 A11]. simpl in A9.
    assert (F : nth_error (instrs_of (m_code m1)) (m_pc m1) = Some Ipush) by (rewrite A2, A3; eapply here_plain; eauto).
    set (m2 := goto (set_stack m1 (upd_stk (S (m_sfp m1) + m_ac m1) (SVal v) (m_stk m1)) (S (m_ac m1))) (S (m_pc m1))).
    assert (R2 : reaches m m2).
    { eapply reaches_trans; [exact A1|]. eapply one; [exact F|]. cbn [Vm.exec]. unfold single. rewrite A9. reflexivity. }
    eapply calls_after; [exact R2|].
    apply (IH2 T P sc _ _ _ m2) with (2 := C2); auto.
    - simpl. rewrite A2. auto.
    - simpl. rewrite A3. apply (here_ins _ _ Ipush). exact Hb.
    - intros b I. apply CL. right. auto.
    - eapply (ctx_le t false). 2:{ instantiate (1 := List.length (bound_vars e) + List.length (bound_vars_seq es)). lia. }
      { destruct CX1 as [E2 E3 E4]. constructor; auto; try discriminate. } all: discriminate.
  Qed.
  Lemma app_calls t r s g es f vs s1 T P sc cs its1 cs1 its2 cs2 m post :
    (sim_ncall t r s g f vs s1 \/ exists gv s0, eval1 prim t r s g (inl gv) s0 /\ sim_nargs t r s0 es f vs s1) ->
    placed (m_code m) T P -> comp g sc false cs its1 cs1 -> cargs es sc cs1 its2 cs2 -> (exists ext, T = ext ++ tmpls cs2) ->
    here P (m_pc m) (its1 ++ [ins Iset_proc; ins (Icheck_stack (List.length es))] ++ its2 ++ ins Iapply :: post) ->
    wf (negb t) true g = true -> forallb (wf (negb t) false) es = true -> closed t sc (EApp g es) ->
    ctx t true sc (List.length (bound_vars g) + List.length (bound_vars_seq es)) r s m ->
    calls m f vs s1.
  Proof.
    intros IH PL C1 C2 EX H W1 W2 CL CX.
    destruct (here_app _ _ _ _ H) as [Ha Hb].
    assert (EX1 : exists ext, T = ext ++ tmpls cs1) by (eapply ext_left; [exact EX|]; eapply cargs_tmpls; eauto).
    assert (CL1 : closed t sc g) by (eapply closed_sub; eauto; intros x I; rewrite fv_app; apply fv_seq_In; auto).
    assert (CX0 : ctx t true sc (List.length (bound_vars g)) r s m) by (eapply ctx_le; eauto; lia).
    destruct IH as [IH|[gv [s0 [IH1 IH2]]]].
    { eapply (IH T P sc false true); eauto. }
    apply (sim_e1 prim) in IH1.
    destruct (IH1 T P sc true _ _ _ m PL C1 EX1 Ha W1 CL1 CX0) as [m1 A].
    assert (CX1 := ctx_arr _ _ _ _ _ _ _ _ _ _ _ _ CX A).
    destruct A as [A1 A2 A3 A4 A5 A6 A7 A8 A9 A10 A11]. simpl in A9.
    assert (F1 : nth_error (instrs_of (m_code m1)) (m_pc m1) = Some Iset_proc) by (rewrite A2, A3; eapply here_plain; eauto).
    set (m2 := goto (set_cp m1 (RV gv) (m_ac m1)) (S (m_pc m1))).
    assert (R2 : reaches m m2).
    { eapply reaches_trans; [exact A1|]. eapply one; [exact F1|]. cbn [Vm.exec]. unfold single. rewrite A9. reflexivity. }
    rewrite <- A3 in Hb. assert (Hc := here_ins _ _ _ _ Hb).
    assert (F2 : nth_error (instrs_of (m_code m2)) (m_pc m2) = Some (Icheck_stack (List.length es))).
    { change (nth_error (instrs_of (m_code m1)) (S (m_pc m1)) = Some (Icheck_stack (List.length es))). rewrite A2. eapply here_plain; eauto. }
    set (m3 := goto m2 (S (m_pc m2))).
    assert (R3 : reaches m m3).
    { eapply reaches_trans; [exact R2|]. eapply one; [exact F2|]. reflexivity. }
    assert (Hd := here_ins _ _ _ _ Hc). destruct (here_app _ _ _ _ Hd) as [He Hf].
    eapply calls_after; [exact R3|].
    apply (IH2 T P sc _ _ _ m3) with (2 := C2); auto.
    - simpl; rewrite A2; auto.
    - intros b I. eapply closed_sub; [exact CL|]. intros x J. rewrite fv_app. apply fv_seq_In. right. exists b. auto.
    - eapply (ctx_le t false). 2:{ instantiate (1 := List.length (bound_vars g) + List.length (bound_vars_seq es)). lia. }
      { destruct CX1 as [E1 E2 E3]. constructor; auto; try discriminate. } all: discriminate.
  Qed.
  Lemma n_app_in t r s g es f vs s1 :
    (sim_ncall t r s g f vs s1 \/ exists gv s0, eval1 prim t r s g (inl gv) s0 /\ sim_nargs t r s0 es f vs s1) ->
    sim_ncall t r s (EApp g es) f vs s1.
  Proof.
    intros IH T P sc tl clean cs its cs' m PL CM EX H W TC CL CX.
    apply app_wf in W. destruct W as [W1 W2]. rewrite bound_vars_app, app_length in CX.
    inversion CM as [| | | | |? ? ? ? ? ? ? ? ? ? ? ? ? PO| | | | | | | | |? ? ? ? its1 cs1 its2 ? C1 C2|? ? ? ? its1 cs1 its2 ? C1 C2]; subst; [discriminate| |].
    - eapply (app_calls t r s g es f vs s1 T P sc _ _ _ _ _ m []); eauto. eapply ctx_le; eauto.
    - destruct (here_fetch _ _ _ _ _ _ PL H) as [j [F RT]]. simpl in RT.
      assert (H' := here_ins _ _ _ _ H).
      destruct (labpos 0 P (labels cs)) as [t0|] eqn:LP; [|discriminate]. simpl in RT. injection RT as <-.
      eapply calls_after; [eapply (one _ _ _ (saved m t0)); [exact F|reflexivity]|].
      eapply (app_calls t r s g es f vs s1 T P sc _ _ _ _ _ (saved m t0) [Lab (labels cs)]); eauto. eapply saved_ctx; eauto.
  Qed.
  Lemma n_app t r s g es fv s1 vs s2 :
    eval1 prim t r s g (inl fv) s1 -> evargs prim t r s1 es (inl vs) s2 -> sim_ncall t r s (EApp g es) fv vs s2.
  Proof.
    intros IH1 IH2 T P sc tl clean cs its cs' m PL CM EX H W TC CL CX. apply (sim_e1 prim) in IH1. apply (sim_as prim) in IH2.
    apply app_wf in W. destruct W as [W1 W2]. rewrite bound_vars_app, app_length in CX.
    inversion CM as [| | | | |? ? ? ? ? ? ? ? ? ? ? ? ? PO| | | | | | | | |? ? ? ? its1 cs1 its2 ? C1 C2|? ? ? ? its1 cs1 its2 ? C1 C2]; subst; [discriminate| |].
    - destruct (app_ready prim t r s g es fv s1 vs s2 T P sc _ _ _ _ _ m [] IH1 IH2 PL C1 C2 EX H W1 W2 CL) as [mA RD].
      { eapply ctx_le; eauto. }
      eapply calls_ready; eauto.
    - destruct (here_fetch _ _ _ _ _ _ PL H) as [j [F RT]]. simpl in RT.
      assert (H' := here_ins _ _ _ _ H).
      destruct (labpos 0 P (labels cs)) as [t0|] eqn:LP; [|discriminate]. simpl in RT. injection RT as <-.
      destruct (app_ready prim t r s g es fv s1 vs s2 T P sc _ _ _ _ _ (saved m t0) [Lab (labels cs)] IH1 IH2 PL C1 C2 EX H' W1 W2 CL) as [mA RD].
      { eapply saved_ctx; eauto. }
      eapply calls_after; [eapply (one _ _ _ (saved m t0)); [exact F|reflexivity]|]. eapply calls_ready; eauto.
  Qed.
  (** The producer, the consumer, the call. *)
  Definition mv_ways t r s p c f vs s' : Prop :=
    sim_ncall t r s p f vs s' \/
    (exists ws s0, eval prim t r s p (RVals ws) s0 /\ sim_ncall t r s0 c f vs s') \/
    (exists s0, eval prim t r s p (RVals vs) s0 /\ eval1 prim t r s0 c (inl f) s').
  Lemma mvcall_calls t r s p c f vs s' T P sc cs its1 cs1 its2 cs2 m post :
    mv_ways t r s p c f vs s' ->
    placed (m_code m) T P -> comp p sc false cs its1 cs1 -> comp c sc false cs1 its2 cs2 -> (exists ext, T = ext ++ tmpls cs2) ->
    here P (m_pc m) (its1 ++ [ins Iclear_frame; ins Ido_with_values] ++ its2 ++ ins Iset_proc :: ins Iapply :: post) ->
    wf (negb t) true p = true -> wf (negb t) false c = true -> closed t sc (EMvCall p c) ->
    ctx t true sc (List.length (bound_vars p) + List.length (bound_vars c)) r s m ->
    calls m f vs s'.
  Proof.
    intros IH PL C1 C2 EX H W1 W2 CL CX.
    destruct (here_app _ _ _ _ H) as [Ha Hb].
    assert (EX1 : exists ext, T = ext ++ tmpls cs1) by (eapply ext_left; [exact EX|]; eapply comp_tmpls; eauto).
    assert (CL1 : closed t sc p) by (eapply closed_sub; [exact CL|]; intros y I; rewrite fv_mvcall; apply fv_seq_In; simpl; eauto 6).
    assert (CL2 : closed t sc c) by (eapply closed_sub; [exact CL|]; intros y I; rewrite fv_mvcall; apply fv_seq_In; simpl; eauto 6).
    assert (CX0 : ctx t true sc (List.length (bound_vars p)) r s m) by (eapply ctx_le; eauto; lia).
    destruct IH as [IH|[[vs0 [s1 [IH1 IH2]]]|[s1 [IH1 IH2]]]].
    - eapply (IH T P sc false true); eauto.
    - apply (sim_e prim) in IH1.
      destruct (IH1 T P sc false true _ _ _ m PL C1 EX1 Ha W1 ltac:(discriminate) CL1 CX0) as [m1 A].
      assert (CX1 := ctx_arr _ _ _ _ _ _ _ _ _ _ _ _ CX A).
      destruct A as [A1 A2 A3 A4 A5 A6 A7 A8 A9 A10 A11].
      assert (F1 : nth_error (instrs_of (m_code m1)) (m_pc m1) = Some Iclear_frame) by (rewrite A2, A3; eapply here_plain; eauto).
      set (m2 := goto (set_cp m1 RNull 0) (S (m_pc m1))).
      assert (R2 : reaches m m2).
      { eapply reaches_trans; [exact A1|]. eapply one; [exact F1|]. reflexivity. }
      rewrite <- A3 in Hb. assert (Hc := here_ins _ _ _ _ Hb).
      assert (F2 : nth_error (instrs_of (m_code m2)) (m_pc m2) = Some Ido_with_values).
      { change (nth_error (instrs_of (m_code m1)) (S (m_pc m1)) = Some Ido_with_values). rewrite A2. eapply here_plain; eauto. }
      set (m3 := goto (set_stack m2 (push_all (m_stk m1) (S (m_sfp m1) + 0) vs0) (0 + List.length vs0)) (S (m_pc m2))).
      assert (R3 : reaches m m3).
      { eapply reaches_trans; [exact R2|]. eapply one; [exact F2|]. cbn [Vm.exec].
        assert (RV' : result_vals m2 = Some vs0) by (apply res_vals; exact A9). rewrite RV'. reflexivity. }
      assert (Hd := here_ins _ _ _ _ Hc). destruct (here_app _ _ _ _ Hd) as [He Hf].
      assert (PL3 : placed (m_code m3) T P) by (change (placed (m_code m1) T P); rewrite A2; auto).
      eapply calls_after; [exact R3|].
      apply (IH2 T P sc false false _ _ _ m3 PL3 C2 EX He W2 ltac:(discriminate) CL2).
      eapply (ctx_le t false). 2:{ instantiate (1 := List.length (bound_vars p) + List.length (bound_vars c)). lia. }
      { destruct CX1 as [E1 E2 E3]. constructor; auto; try discriminate. } discriminate.
    - apply (sim_e prim) in IH1. apply (sim_e1 prim) in IH2.
      destruct (mvcall_ready prim t r s p c vs s1 (inl f) s' T P sc _ _ _ _ _ m post IH1 IH2 PL C1 C2 EX H W1 W2 CL CX) as [mA RD].
      eapply calls_ready; eauto.
  Qed.
  Lemma n_mvcall t r s p c f vs s' : mv_ways t r s p c f vs s' -> sim_ncall t r s (EMvCall p c) f vs s'.
  Proof.
    intros IH T P sc tl clean cs its cs' m PL CM EX H W TC CL CX.
    apply mvcall_wf in W. destruct W as [W1 W2]. rewrite mvcall_bound in CX.
    inversion CM as [| | | | |? ? ? ? ? ? ? ? ? ? ? ? ? PO|? ? ? ? its1 cs1 its2 ? C1 C2|? ? ? ? its1 cs1 its2 ? C1 C2| | | | | | | | ]; subst; [discriminate| |].
    - eapply (mvcall_calls t r s p c f vs s' T P sc _ _ _ _ _ m []); eauto. eapply ctx_le; eauto.
    - destruct (here_fetch _ _ _ _ _ _ PL H) as [j [F RT]]. simpl in RT.
      assert (H' := here_ins _ _ _ _ H).
      destruct (labpos 0 P (labels cs)) as [t0|] eqn:LP; [|discriminate]. simpl in RT. injection RT as <-.
      eapply calls_after; [eapply (one _ _ _ (saved m t0)); [exact F|reflexivity]|].
      eapply (mvcall_calls t r s p c f vs s' T P sc _ _ _ _ _ (saved m t0) [Lab (labels cs)]); eauto. eapply saved_ctx; eauto.
  Qed.
  Lemma n_mvlet_rhs t r s e xs body f vs s1 :
    sim_ncall t r s e f vs s1 -> sim_ncall t r s (EMvLet e (Formals xs None) body) f vs s1.
  Proof.
    intros IH1 T P sc tl clean cs its cs' m PL CM EX H W TC CL CX.
    inversion CM as [| | | | |? ? ? ? ? ? ? ? ? ? ? ? ? PO| | |? ? ? ? ? ? its1 cs1 its2 ? C1 C2| | | | | | | ]; subst; [discriminate|].
    simpl in W. apply andb_true_iff in W. destruct W as [W1 W2]. rewrite mvlet_bound in CX.
    destruct (mvlet_closed _ _ _ _ _ CL) as [CL1 CL2].
    destruct (here_app _ _ _ _ H) as [Ha Hb].
    apply (IH1 T P sc false clean _ _ _ m PL C1); auto; try discriminate.
    { eapply ext_left; [exact EX|]. eapply comp_tmpls; eauto. }
    { eapply ctx_le; eauto. lia. }
  Qed.
  Lemma n_mvlet t r s e xs body ws s1 f vs s2 :
    eval prim t r s e (RVals ws) s1 -> List.length ws = List.length xs ->
    sim_ncall t (bind_env xs (List.length (cells_of s1)) r) (add_cells ws s1) body f vs s2 ->
    sim_ncall t r s (EMvLet e (Formals xs None) body) f vs s2.
  Proof.
    intros IH1 LV IH2 T P sc tl clean cs its cs' m PL CM EX H W TC CL CX. apply (sim_e prim) in IH1.
    inversion CM as [| | | | |? ? ? ? ? ? ? ? ? ? ? ? ? PO| | |? ? ? ? ? ? its1 cs1 its2 ? C1 C2| | | | | | | ]; subst; [discriminate|].
    simpl in W. apply andb_true_iff in W. destruct W as [W1 W2]. rewrite mvlet_bound in CX.
    destruct (mvlet_closed _ _ _ _ _ CL) as [CL1 CL2].
    destruct (here_app _ _ _ _ H) as [Ha Hb].
    destruct (IH1 T P sc false clean _ _ _ m PL C1) as [m1 A]; auto; try discriminate.
    { eapply ext_left; [exact EX|]. eapply comp_tmpls; eauto. }
    { eapply ctx_le; eauto. lia. }
    assert (CX1 := ctx_arr _ _ _ _ _ _ _ _ _ _ _ _ CX A).
    destruct CX1 as [[sl [E1 [E2 E3]]] R C].
    destruct (bind_all_ok xs ws t sc r sl s1 (m_data m1) (m_env m1) LV R E1 ltac:(lia) E3) as [d' [sl' [B [N1 [L1 [EO [R' K]]]]]]].
    assert (F : nth_error (instrs_of (m_code m1)) (m_pc m1) = Some (Ibind_values (List.length sc) (List.length xs) xs)).
    { rewrite (ar_code _ _ _ _ _ _ _ _ A), (ar_pc _ _ _ _ _ _ _ _ A). eapply here_plain; eauto. }
    set (m2 := goto (set_r0 (set_data m1 d') (RV VVoid)) (S (m_pc m1))).
    assert (Q : quiet prim 1 m1 m2).
    { eapply quiet_one; [exact F| | | | | | | | |]; try reflexivity. cbn [Vm.exec].
      rewrite (res_vals _ _ (ar_res _ _ _ _ _ _ _ _ A)). rewrite (proj2 (Nat.eqb_eq _ _) LV), B. reflexivity. }
    assert (A2 : arr (List.length sc) clean (its1 ++ [ins (Ibind_values (List.length sc) (List.length xs) xs)]) m [VVoid] (add_cells ws s1) m2).
    { eapply arr_then; [exact A|exact Q|reflexivity|exact R'|exact K]. }
    eapply calls_after; [apply A2|].
    rewrite app_assoc in H. apply here_app in H. destruct H as [_ Hc].
    apply (IH2 T P (rev xs ++ sc) tl clean _ _ _ m2) with (2 := C2); auto.
    - eapply placed_code; [apply (ar_code _ _ _ _ _ _ _ _ A2)|auto].
    - rewrite (ar_pc _ _ _ _ _ _ _ _ A2). exact Hc.
    - constructor; auto. exists sl'. split; auto. split; auto. rewrite app_length, rev_length. lia.
  Qed.
  Lemma n_mvvalues t r s es f vs s1 : es <> [] -> sim_nargs t r s es f vs s1 -> sim_ncall t r s (EMvValues es) f vs s1.
  Proof.
    intros E0 IH T P sc tl clean cs its cs' m PL CM EX H W TC CL CX. rewrite bound_vars_mvvalues in CX.
    simpl in W. apply andb_true_iff in W. destruct W as [-> W].
    assert (CLs : forall b, In b es -> closed t sc b).
    { eapply closed_seq; eauto. }
    assert (CX' : ctx t false sc (List.length (bound_vars_seq es)) r s m) by (eapply ctx_le; eauto; discriminate).
    inversion CM as [| | | | |? ? ? ? ? ? ? ? ? ? ? ? ? PO| | | | |e0 es0 ? ? ? its1 ? C1| | | | |]; subst; [discriminate|contradiction|].
    assert (H' := here_tail _ _ _ _ H). cbn [app] in H'.
    assert (F : nth_error (instrs_of (m_code m)) (m_pc m) = Some (Icheck_stack (List.length (e0 :: es0)))) by (eapply here_plain; eauto).
    set (m0 := goto m (S (m_pc m))).
    assert (R0 : reaches m m0) by (eapply one; [exact F|reflexivity]).
    apply here_ins in H'. destruct (here_app _ _ _ _ H') as [Ha Hb].
    eapply calls_after; [exact R0|].
    apply (IH T P sc _ _ _ m0 PL C1 EX Ha W CLs).
    destruct CX' as [X1 X2 X3]. constructor; auto.
  Qed.
  Lemma n_absent t r s e f vs s1 : (forall i c, wf i c e = false) -> sim_ncall t r s e f vs s1.
  Proof. intros W T P sc tl clean cs its cs' m PL CM EX H W'. rewrite W in W'. discriminate. Qed.

  Lemma ncall_simulation :
    (forall t r s e f vs s', ncall prim t r s e f vs s' -> sim_ncall t r s e f vs s') /\
    (forall t r s es f vs s', nseq prim t r s es f vs s' -> sim_nseq t r s es f vs s') /\
    (forall t r s es f vs s', nargs prim t r s es f vs s' -> sim_nargs t r s es f vs s' /\ es <> []) /\
    (forall t r s bs f vs s', nbinds prim t r s bs f vs s' -> True) /\
    (forall t r s k bs f vs s', nrec prim t r s k bs f vs s' -> True).
  Proof.
    apply ncall_all; intros; auto; try (apply n_absent; reflexivity).
    - apply n_define; auto.
    - apply n_set; auto.
    - apply n_begin; auto.
    - apply n_if_test; auto.
    - eapply n_if; eauto.
    - eapply n_if; eauto.
    - apply n_app_in; auto.
    - destruct H1 as [H1 _]. apply n_app_in; eauto.
    - eapply n_app; eauto.
    - apply n_mvcall. left. auto.
    - apply n_mvcall. right. left. eauto.
    - apply n_mvcall. right. right. eauto.
    - apply n_mvlet_rhs. auto.
    - eapply n_mvlet; eauto.
    - destruct H0 as [H1 H2]. apply n_mvvalues; auto.
    - apply n_seq_here; auto.
    - eapply n_seq_next; eauto.
    - split; [|discriminate]. apply n_args_here; auto.
    - split; [|discriminate]. destruct H1 as [H1 _]. eapply n_args_next; eauto.
  Qed.

  (** One call leads to the next one. *)
  Lemma call_one m s f vs g ws s' : at_call m f vs s -> nstep prim s f vs g ws s' ->
    exists m1 m2 m3, do_application m = Next m1 /\ reaches m1 m2 /\ step m2 = do_application m3 /\ at_call m3 g ws s'.
  Proof.
    intros A0 H. inversion H as [? ? ? cls r fm body r1 s1 ? ? ? PA SEL BC NS|? ? ? mid l xs PA PG LA]; subst.
    - destruct A0 as [CP [FA R]].
      destruct (enter_clo prim m s f vs cls r fm body r1 s1 PA SEL BC CP FA R) as [m6 [T0 [P [sc1 [cs1 [its1 [cs2 EN]]]]]]].
      destruct (en_run _ _ _ _ _ _ _ _ _ _ _ _ _ EN) as [m1 [AP R1]].
      destruct (proj1 (proj2 ncall_simulation) _ _ _ _ _ _ _ NS T0 P sc1 true true cs1 its1 cs2 m6 (en_placed _ _ _ _ _ _ _ _ _ _ _ _ _ EN)
                  (en_body _ _ _ _ _ _ _ _ _ _ _ _ _ EN)) as [m2 [m3 [R2 [ST AC]]]]; try apply EN; auto.
      exists m1, m2, m3. split; auto. split; auto. eapply reaches_trans; eauto.
    - assert (TS : tstep prim s' f (g :: mid ++ [l]) g (mid ++ xs) s') by (econstructor; eauto).
      destruct (tail_one prim m _ _ _ _ _ _ A0 TS) as [m1 [m2 [m3 [B1 [B2 [B3 [B4 _]]]]]]]. exists m1, m2, m3. auto.
  Qed.
  Lemma chain_runs n : forall m s f vs, nchain prim n s f vs -> at_call m f vs s -> exists m', call_runs prim n m m'.
  Proof.
    induction n as [|n IH]; intros m s f vs H A; [exists m; constructor|]. inversion H as [|? ? ? ? g ws s' S H']; subst.
    destruct (call_one _ _ _ _ _ _ _ A S) as [m1 [m2 [m3 [B1 [B2 [B3 B4]]]]]]. destruct (IH _ _ _ _ H' B4) as [m' X].
    exists m'. econstructor; eauto.
  Qed.

  (** The number of steps. *)
  Lemma run_app a : forall b m m1, run prim a m = Next m1 -> run prim (a + b) m = run prim b m1.
  Proof.
    induction a as [|a IH]; intros b m m1 H; simpl in *; [injection H as ->; auto|].
    destruct (step m); try discriminate. auto.
  Qed.
  Lemma reaches_run m m1 : reaches m m1 -> exists k, run prim k m = Next m1.
  Proof. induction 1 as [m|m ma mb ST R [k H]]; [exists 0; auto|]. exists (S k). simpl. rewrite ST. auto. Qed.
  Lemma run_less a : forall b m m1, run prim (a + b) m = Next m1 -> exists m2, run prim a m = Next m2.
  Proof.
    induction a as [|a IH]; intros b m m1 H; simpl in *; [eauto|]. destruct (step m); try discriminate. eauto.
  Qed.
  Lemma calls_run n : forall m m1 m2, step m = do_application m1 -> call_runs prim (S n) m1 m2 ->
    exists k m', n <= k /\ run prim k m = Next m'.
  Proof.
    induction n as [|n IH]; intros m m1 m2 ST H; inversion H as [|? ? ma mb mc ? B1 B2 B3 B4]; subst.
    - exists 0, m. auto.
    - destruct (IH _ _ _ B3 B4) as [k [m' [L X]]]. destruct (reaches_run _ _ B2) as [j Y].
      exists (S (j + k)), m'. split; [lia|]. cbn [run]. rewrite ST, B1. rewrite (run_app _ _ _ _ Y). auto.
  Qed.
  Lemma calls_steps m n : (exists m1 m2 m3, reaches m m1 /\ step m1 = do_application m2 /\ call_runs prim (S n) m2 m3) ->
    exists m', run prim n m = Next m'.
  Proof.
    intros [m1 [m2 [m3 [R [ST C]]]]]. destruct (calls_run _ _ _ _ ST C) as [k [m' [L X]]].
    destruct (reaches_run _ _ R) as [j Y]. apply (run_less n (j + k - n) m m').
    replace (n + (j + k - n)) with (j + k) by lia. rewrite (run_app _ _ _ _ Y). auto.
  Qed.
  Lemma ends_run m o : ends prim m o -> exists k, run prim k m = o /\ match o with Next _ => False | _ => True end.
  Proof.
    intros [m1 [R [ST O]]]. destruct (reaches_run _ _ R) as [k X]. exists (k + 1). split; auto.
    rewrite (run_app _ _ _ _ X). simpl. rewrite ST. destruct o; auto.
  Qed.

  (** One top-level expression. *)
  Lemma top_steps e c s d stk env vc vals n f vs s' :
    compile_top e = Some c -> wf false true e = true -> ncall prim true [] s e f vs s' -> nchain prim (S n) s' f vs ->
    drel s d -> env < List.length (d_envs d) ->
    exists m', run prim n (start c stk env vc vals d) = Next m'.
  Proof.
    intros CT W NC CH R LE. destruct (top_inv _ _ CT) as [its [cs [P' [reloc [C [RR WC]]]]]].
    destruct (top_assembled _ _ _ C) as [AS RO].
    assert (PL : placed c (tmpls cs) (top_items e its)) by (eapply placed_of; eauto).
    destruct (top_ctx prim e its cs c stk env vc vals s d C PL R LE) as [m1 [R1 [PL1 [H1 [CX1 [SF [CC G1]]]]]]].
    apply calls_steps.
    destruct (proj1 ncall_simulation _ _ _ _ _ _ _ NC (tmpls cs) (top_items e its) [] true true _ _ _ m1 PL1 C (ex_intro _ [] eq_refl) H1 W (fun _ => eq_refl)
                   (closed_top _ _) CX1) as [m2 [m3 [R2 [ST A]]]].
    destruct (chain_runs (S n) _ _ _ _ CH A) as [m' X]. exists m2, m3, m'. split; [eapply reaches_trans; eauto|]. auto.
  Qed.
End Sim.
