(** The simulation of Sim.v: every evaluation is carried out by the machine. *)
From Coq Require Import ZArith NArith Bool Ascii String List Arith Lia.
From Verif Require Import Base Heap HeapM Ast FreeVars Code CodeProofs Compile CompRel CompProofs SlotProofs Sem Vm Sim SimLemmas.
Import ListNotations.
Local Open Scope list_scope.

Scheme eval_min := Minimality for eval Sort Prop
  with evseq_min := Minimality for evseq Sort Prop
  with eval1_min := Minimality for eval1 Sort Prop
  with evargs_min := Minimality for evargs Sort Prop
  with evbinds_min := Minimality for evbinds Sort Prop
  with evrec_min := Minimality for evrec Sort Prop
  with apply_min := Minimality for apply Sort Prop.
Combined Scheme eval_mins from eval_min, evseq_min, eval1_min, evargs_min, evbinds_min, evrec_min, apply_min.

Section Sim.
  Variable prim : N -> list val -> heap -> option presult.
  Notation step := (step prim).
  Notation exec := (exec prim).
  Notation reaches := (reaches prim).
  Notation arr := (arr prim).
  Notation ret := (ret prim).
  Notation fails := (fails prim).
  Notation done := (done prim).
  Notation pushed := (pushed prim).
  Notation called := (called prim).
  Notation call_fails := (call_fails prim).

  (** ** Runs that leave most registers alone *)
  Record quiet (k : nat) (m m' : mst) : Prop := Quiet {
    q_run : reaches m m';
    q_code : m_code m' = m_code m;
    q_pc : m_pc m' = m_pc m + k;
    q_sfp : m_sfp m' = m_sfp m;
    q_cc : m_cc m' = m_cc m;
    q_env : m_env m' = m_env m;
    q_ac : m_ac m' = m_ac m;
    q_cp : m_cp m' = m_cp m;
    q_stk : m_stk m' = m_stk m }.
  Lemma quiet_refl m : quiet 0 m m.
  Proof. constructor; auto. constructor. Qed.
  Lemma quiet_trans k k' m m1 m2 : quiet k m m1 -> quiet k' m1 m2 -> quiet (k + k') m m2.
  Proof.
    intros [A1 A2 A3 A4 A5 A6 A7 A8 A9] [B1 B2 B3 B4 B5 B6 B7 B8 B9]. constructor; try congruence.
    - eapply reaches_trans; eauto.
    - lia.
  Qed.
  Lemma quiet_one m i m1 :
    nth_error (instrs_of (m_code m)) (m_pc m) = Some i -> exec i m = Next m1 ->
    m_code m1 = m_code m -> m_pc m1 = S (m_pc m) -> m_sfp m1 = m_sfp m -> m_cc m1 = m_cc m -> m_env m1 = m_env m ->
    m_ac m1 = m_ac m -> m_cp m1 = m_cp m -> m_stk m1 = m_stk m -> quiet 1 m m1.
  Proof. intros N X. intros. constructor; auto; [eapply one; eauto|lia]. Qed.

  Lemma arr_quiet n clean its m vs s' m' :
    quiet (ninstr its) m m' -> res_ok vs m' -> drel s' (m_data m') -> dkeeps n (m_env m) (m_data m) (m_data m') ->
    arr n clean its m vs s' m'.
  Proof.
    intros [A1 A2 A3 A4 A5 A6 A7 A8 A9] R D K. constructor; auto. apply keeps_of; auto. intros. congruence.
  Qed.
  Lemma arr_seq n n' clean a b m vs s1 m1 ws s2 m2 :
    arr n clean a m vs s1 m1 -> arr n' clean b m1 ws s2 m2 -> n <= n' -> arr n clean (a ++ b) m ws s2 m2.
  Proof.
    intros [A1 A2 A3 A4 A5 A6 A7 A8 A9 A10 A11] [B1 B2 B3 B4 B5 B6 B7 B8 B9 B10 B11] L.
    constructor; try congruence; auto.
    - eapply reaches_trans; eauto.
    - rewrite ninstr_app. lia.
    - intros C. rewrite B8 by auto. auto.
    - eapply keeps_trans; eauto. lia.
  Qed.
  Lemma arr_then n clean a b m vs s1 m1 ws s2 m2 :
    arr n clean a m vs s1 m1 -> quiet (ninstr b) m1 m2 -> res_ok ws m2 -> drel s2 (m_data m2) ->
    dkeeps n (m_env m1) (m_data m1) (m_data m2) -> arr n clean (a ++ b) m ws s2 m2.
  Proof. intros A Q R D K. eapply arr_seq; [exact A|apply arr_quiet; eauto|auto]. Qed.

  (** Moving a context and a position. *)
  Lemma placed_code m m' T P : m_code m' = m_code m -> placed (m_code m) T P -> placed (m_code m') T P.
  Proof. intros ->. auto. Qed.

  (** ** Literals and variables *)
  Lemma sim_lit (top : bool) v T P sc tl clean r s n m :
    placed (m_code m) T P -> here P (m_pc m) (with_tail_ret [ins (Iliteral v)] tl) ->
    ctx top clean sc n r s m ->
    done tl (List.length sc) clean (with_tail_ret [ins (Iliteral v)] tl) m (RVals [v]) s.
  Proof.
    intros PL H C. eapply done_ret; eauto. apply here_tail in H. assert (F := here_plain _ _ _ _ _ _ _ PL H eq_refl).
    eapply arr_quiet.
    - eapply quiet_one; [exact F|reflexivity|..]; reflexivity.
    - reflexivity.
    - apply C.
    - apply dkeeps_same; [reflexivity|apply grows_refl].
  Qed.

  Lemma scope_some top sc r sl d x l : env_ok top sc r sl d -> closed top sc (EVar x) -> lookup_env x r = Some l ->
    exists i, scope_ref sc x = Some i.
  Proof.
    intros [E1 E2] C L. destruct (scope_ref sc x) as [i|] eqn:S; [eauto|]. destruct top.
    - apply E2 in S; auto. congruence.
    - exfalso. revert S. apply scope_ref_In. apply C; auto. simpl. auto.
  Qed.

  Lemma slot_env top sc r sl d x i e : nth_error (d_envs d) e = Some sl -> env_ok top sc r sl d -> scope_ref sc x = Some i ->
    exists cr, env_slot d e i = Some cr /\ cref_ok x r cr d.
  Proof.
    intros N [E1 _] S. destruct (E1 _ _ S) as [cr [N' C]]. exists cr. unfold env_slot. rewrite N, N'. auto.
  Qed.

  Lemma cell_of_CL s d l x v : drel s d -> nth_error (map fst (d_cells d)) l = Some x -> nth_error (cells_of s) l = Some v ->
    nth_error (d_cells d) l = Some (x, v).
  Proof.
    intros R N1 N2. rewrite (dr_cells _ _ R) in N2. rewrite nth_map in N1. rewrite nth_map in N2. destruct (nth_error (d_cells d) l) as [[a b]|]; simpl in *; congruence.
  Qed.

  (** What a lookup does. *)
  Lemma var_exec top sc r s sl x m :
    nth_error (d_envs (m_data m)) (m_env m) = Some sl -> env_ok top sc r sl (m_data m) -> closed top sc (EVar x) ->
    drel s (m_data m) ->
    forall (v : val), match lookup_env x r with
              | Some l => nth_error (cells_of s) l = Some v
              | None => glob_ref x (glob_of s) = Some v \/ v = VUnbound /\ glob_ref x (glob_of s) = None
              end ->
    exec (match scope_ref sc x with None => Itl_lookup x | Some i => Ilookup i end) m =
      match v with VUnbound => Fail (ErrInit x) m | _ => next (set_r0 m (RV v)) end.
  Proof.
    intros N E C R v H. destruct (lookup_env x r) as [l|] eqn:L.
    - destruct (scope_some _ _ _ _ _ _ _ E C L) as [i S]. rewrite S.
      destruct (slot_env _ _ _ _ _ _ _ _ N E S) as [cr [ES CR]]. unfold cref_ok in CR. rewrite L in CR. destruct CR as [-> CN].
      cbn [Vm.exec]. rewrite ES. cbn [cell_val]. rewrite (cell_of_CL _ _ _ _ _ R CN H). destruct v; reflexivity.
    - assert (GR := dr_glob _ _ R x). destruct (scope_ref sc x) as [i|] eqn:S.
      + destruct (slot_env _ _ _ _ _ _ _ _ N E S) as [cr [ES CR]]. unfold cref_ok in CR. rewrite L in CR. destruct CR as [-> CG].
        cbn [Vm.exec]. rewrite ES. cbn [cell_val].
        destruct H as [H|[-> H]]; rewrite H in GR.
        * rewrite GR. destruct v; reflexivity.
        * destruct GR as [GR|GR]; [congruence|]. rewrite GR. reflexivity.
      + cbn [Vm.exec]. destruct H as [H|[-> H]]; rewrite H in GR.
        * rewrite GR. destruct v; reflexivity.
        * destruct GR as [GR|GR]; rewrite GR; reflexivity.
  Qed.

  Lemma sim_var top r s x v T P sc tl clean cs its cs' m :
    placed (m_code m) T P -> comp (EVar x) sc tl cs its cs' -> here P (m_pc m) its -> closed top sc (EVar x) ->
    ctx top clean sc 0 r s m ->
    match lookup_env x r with
    | Some l => nth_error (cells_of s) l = Some v
    | None => glob_ref x (glob_of s) = Some v \/ v = VUnbound /\ glob_ref x (glob_of s) = None
    end ->
    done tl (List.length sc) clean its m (match v with VUnbound => RErr (ErrInit x) | _ => RVals [v] end) s.
  Proof.
    intros PL CM H CL CX V. inversion CM; subst; [|discriminate].
    destruct (cx_env _ _ _ _ _ _ _ CX) as [sl [N [_ E]]]. assert (R := cx_rel _ _ _ _ _ _ _ CX).
    assert (X := var_exec _ _ _ _ _ _ _ N E CL R v V). assert (H' := here_tail _ _ _ _ H).
    assert (F : nth_error (instrs_of (m_code m)) (m_pc m) = Some (match scope_ref sc x with None => Itl_lookup x | Some i => Ilookup i end)).
    { eapply here_plain; eauto. destruct (scope_ref sc x); reflexivity. }
    assert (OK : exec (match scope_ref sc x with None => Itl_lookup x | Some i => Ilookup i end) m = next (set_r0 m (RV v)) ->
                 done tl (List.length sc) clean (with_tail_ret [ins (match scope_ref sc x with None => Itl_lookup x | Some i => Ilookup i end)] tl) m (RVals [v]) s).
    { intros X'. eapply done_ret; eauto. eapply arr_quiet.
      - eapply quiet_one; [exact F|exact X'|..]; reflexivity.
      - reflexivity.
      - exact R.
      - apply dkeeps_same; [reflexivity|apply grows_refl]. }
    destruct v; auto. exists m, m. split; [constructor|]. split; auto. rewrite (step_exec _ _ _ F). exact X.
  Qed.

  Lemma closed_top sc e : closed true sc e.
  Proof. discriminate. Qed.
  Lemma closed_seq (top : bool) sc e es : closed top sc e -> (forall x, In x (free_vars_seq es []) -> In x (free_vars e)) ->
    forall b, In b es -> closed top sc b.
  Proof. intros C H b I. eapply closed_sub; eauto. intros x F. apply H. apply fv_seq_In. right. eauto. Qed.
  Lemma bound_len b es : In b es -> List.length (bound_vars b) <= List.length (bound_vars_seq es).
  Proof.
    induction es as [|x r IH]; [intros []|]. simpl. rewrite app_length. intros [->|I]; [lia|]. apply IH in I. lia.
  Qed.

  (** ** Definitions and assignments *)
  Lemma here_mid P pc a b : here P pc (a ++ b) -> here P (pc + ninstr a) b.
  Proof. intros H. apply here_app in H. apply H. Qed.

  Lemma case_define t r s ids e vs s1 : sim_eval prim t r s e (RVals vs) s1 -> List.length vs = List.length ids ->
    sim_eval prim t r s (EDefine ids e) (RVals [VVoid]) (set_globs ids vs s1).
  Proof.
    intros IH LV T P sc tl clean cs its cs' m PL CM EX H W TC CL CX. inversion CM; subst; [|discriminate].
    simpl in W. apply andb_true_iff in W. destruct W as [W1 W]. destruct t; [|discriminate].
    assert (H' := here_tail _ _ _ _ H). destruct (here_app _ _ _ _ H') as [Ha Hb].
    destruct (IH T P sc false clean _ _ _ m PL ltac:(eassumption) EX Ha W ltac:(discriminate) (closed_top _ _)) as [m1 A].
    { eapply ctx_le; eauto. simpl. rewrite app_length. lia. }
    destruct (tl_bind_rel ids vs _ _ LV (ar_rel _ _ _ _ _ _ _ _ A)) as [d' [B [R' [G' E']]]].
    eapply done_ret; eauto. eapply arr_then; [exact A|..].
    - assert (F : nth_error (instrs_of (m_code m1)) (m_pc m1) = Some (Itl_bind_values (List.length ids) ids)).
      { rewrite (ar_code _ _ _ _ _ _ _ _ A), (ar_pc _ _ _ _ _ _ _ _ A). eapply here_plain; eauto. }
      eapply quiet_one; [exact F|cbn [Vm.exec]; rewrite (res_vals _ _ (ar_res _ _ _ _ _ _ _ _ A)), LV, Nat.eqb_refl, B; reflexivity|..]; reflexivity.
    - reflexivity.
    - exact R'.
    - apply dkeeps_same; auto.
  Qed.

  Lemma case_define_bad t r s ids e vs s1 : sim_eval prim t r s e (RVals vs) s1 -> List.length vs <> List.length ids ->
    sim_eval prim t r s (EDefine ids e) (RErr (ErrResults (List.length ids) (List.length vs))) s1.
  Proof.
    intros IH LV T P sc tl clean cs its cs' m PL CM EX H W TC CL CX. inversion CM; subst; [|discriminate].
    simpl in W. apply andb_true_iff in W. destruct W as [W1 W]. destruct t; [|discriminate].
    assert (H' := here_tail _ _ _ _ H). destruct (here_app _ _ _ _ H') as [Ha Hb].
    destruct (IH T P sc false clean _ _ _ m PL ltac:(eassumption) EX Ha W ltac:(discriminate) (closed_top _ _)) as [m1 A].
    { eapply ctx_le; eauto. simpl. rewrite app_length. lia. }
    exists m1, m1. split; [apply A|]. split; [|apply A].
    erewrite (step_exec _ _ (Itl_bind_values (List.length ids) ids)).
    - cbn [Vm.exec]. rewrite (res_vals _ _ (ar_res _ _ _ _ _ _ _ _ A)). destruct (Nat.eqb_spec (List.length vs) (List.length ids)); [contradiction|reflexivity].
    - rewrite (ar_code _ _ _ _ _ _ _ _ A), (ar_pc _ _ _ _ _ _ _ _ A). eapply here_plain; eauto.
  Qed.

  Lemma case_define_err t r s ids e y s1 : sim_eval prim t r s e (RErr y) s1 -> sim_eval prim t r s (EDefine ids e) (RErr y) s1.
  Proof.
    intros IH T P sc tl clean cs its cs' m PL CM EX H W TC CL CX. inversion CM; subst; [|discriminate].
    simpl in W. apply andb_true_iff in W. destruct W as [W1 W]. destruct t; [|discriminate].
    assert (H' := here_tail _ _ _ _ H). destruct (here_app _ _ _ _ H') as [Ha Hb].
    apply (IH T P sc false clean _ _ _ m PL ltac:(eassumption) EX Ha W ltac:(discriminate) (closed_top _ _)).
    eapply ctx_le; eauto. simpl. rewrite app_length. lia.
  Qed.

  Lemma set_incl x e : incl (free_vars e) (free_vars (ESet x e)).
  Proof. intros y I. simpl. apply merge_fvs_In. auto. Qed.
  Lemma set_closed (top : bool) sc x e : closed top sc (ESet x e) -> closed top sc (EVar x).
  Proof.
    intros C T y I. apply C; auto. destruct I as [->|[]]. simpl. apply merge_fvs_In. right. simpl. auto.
  Qed.

  (** The common part of an assignment. *)
  Lemma set_common t r s x e v s1 T P sc tl clean cs its cs' m :
    sim_eval prim t r s e (RVals [v]) s1 ->
    placed (m_code m) T P -> comp (ESet x e) sc tl cs its cs' -> (exists ext, T = ext ++ tmpls cs') -> here P (m_pc m) its ->
    wf (negb t) clean (ESet x e) = true -> closed t sc (ESet x e) ->
    ctx t clean sc (List.length (bound_vars (ESet x e))) r s m ->
    exists its1 m1 sl, arr (List.length sc) clean its1 m [v] s1 m1 /\
      its = with_tail_ret (its1 ++ [ins (match scope_ref sc x with None => Itl_rebind x | Some i => Irebind i end)]) tl /\
      nth_error (instrs_of (m_code m1)) (m_pc m1) = Some (match scope_ref sc x with None => Itl_rebind x | Some i => Irebind i end) /\
      nth_error (d_envs (m_data m1)) (m_env m1) = Some sl /\ env_ok t sc r sl (m_data m1) /\ drel s1 (m_data m1).
  Proof.
    intros IH PL CM EX H W CL CX. inversion CM; subst; [|discriminate]. simpl in W.
    assert (H' := here_tail _ _ _ _ H). destruct (here_app _ _ _ _ H') as [Ha Hb].
    destruct (IH T P sc false clean _ _ _ m PL ltac:(eassumption) EX Ha W ltac:(discriminate)) as [m1 A].
    { eapply closed_sub; eauto. apply set_incl. }
    { exact CX. }
    assert (CX1 := ctx_arr _ _ _ _ _ _ _ _ _ _ _ _ CX A). destruct (cx_env _ _ _ _ _ _ _ CX1) as [sl [N [_ E]]].
    eexists _, m1, sl. split; [exact A|]. split; [reflexivity|]. split; [|split; [exact N|split; [exact E|apply A]]].
    rewrite (ar_code _ _ _ _ _ _ _ _ A), (ar_pc _ _ _ _ _ _ _ _ A). eapply here_plain; eauto. destruct (scope_ref sc x); reflexivity.
  Qed.

  Lemma case_set_local t r s x e v s1 l : sim_eval prim t r s e (RVals [v]) s1 -> lookup_env x r = Some l ->
    l < List.length (cells_of s1) -> sim_eval prim t r s (ESet x e) (RVals [VVoid]) (set_cell l v s1).
  Proof.
    intros IH LK LT T P sc tl clean cs its cs' m PL CM EX H W TC CL CX.
    destruct (set_common _ _ _ _ _ _ _ _ _ _ _ _ _ _ _ _ IH PL CM EX H W CL CX) as [its1 [m1 [sl [A [-> [F [N [E R]]]]]]]].
    destruct (scope_some _ _ _ _ _ _ _ E (set_closed _ _ _ _ CL) LK) as [i S]. rewrite S in *.
    destruct (slot_env _ _ _ _ _ _ _ _ N E S) as [cr [ES CR]]. unfold cref_ok in CR. rewrite LK in CR. destruct CR as [-> CN].
    assert (exists w, nth_error (d_cells (m_data m1)) l = Some (x, w)) as [w NC].
    { rewrite nth_map in CN. destruct (nth_error (d_cells (m_data m1)) l) as [[a b]|]; [|discriminate]. exists b. simpl in CN. congruence. }
    destruct (set_cell_rel _ _ _ v _ _ R NC) as [R' G'].
    eapply done_ret; eauto. eapply arr_then; [exact A|..].
    - eapply quiet_one; [exact F|cbn [Vm.exec]; assert (R0 := ar_res _ _ _ _ _ _ _ _ A); simpl in R0; rewrite R0, ES; cbn [cell_set]; rewrite NC; reflexivity|..]; reflexivity.
    - reflexivity.
    - exact R'.
    - apply dkeeps_same; auto.
  Qed.

  Lemma case_set_global r s x e v s1 w : sim_eval prim true r s e (RVals [v]) s1 -> lookup_env x r = None ->
    glob_ref x (glob_of s1) = Some w -> sim_eval prim true r s (ESet x e) (RVals [v]) (set_glob x v s1).
  Proof.
    intros IH LK GL T P sc tl clean cs its cs' m PL CM EX H W TC CL CX.
    destruct (set_common _ _ _ _ _ _ _ _ _ _ _ _ _ _ _ _ IH PL CM EX H W CL CX) as [its1 [m1 [sl [A [-> [F [N [E R]]]]]]]].
    assert (S : scope_ref sc x = None) by (apply E; auto). rewrite S in *.
    destruct (set_glob_rel _ _ x v R) as [R' G']. assert (GR := dr_glob _ _ R x). rewrite GL in GR.
    assert (R0 := ar_res _ _ _ _ _ _ _ _ A). simpl in R0.
    eapply done_ret; eauto. eapply arr_then; [exact A|..].
    - eapply quiet_one; [exact F|cbn [Vm.exec]; rewrite R0, GR; reflexivity|..]; reflexivity.
    - simpl. exact R0.
    - exact R'.
    - apply dkeeps_same; auto.
  Qed.

  Lemma case_set_global_in r s x e v s1 : sim_eval prim false r s e (RVals [v]) s1 -> lookup_env x r = None ->
    sim_eval prim false r s (ESet x e) (RVals [VVoid]) (set_glob x v s1).
  Proof.
    intros IH LK T P sc tl clean cs its cs' m PL CM EX H W TC CL CX.
    destruct (set_common _ _ _ _ _ _ _ _ _ _ _ _ _ _ _ _ IH PL CM EX H W CL CX) as [its1 [m1 [sl [A [-> [F [N [E R]]]]]]]].
    destruct (scope_ref sc x) as [i|] eqn:S.
    2:{ exfalso. revert S. apply scope_ref_In. apply (set_closed _ _ _ _ CL); auto. simpl. auto. }
    destruct (slot_env _ _ _ _ _ _ _ _ N E S) as [cr [ES CR]]. unfold cref_ok in CR. rewrite LK in CR. destruct CR as [-> CG].
    destruct (set_glob_rel _ _ x v R) as [R' G'].
    assert (R0 := ar_res _ _ _ _ _ _ _ _ A). simpl in R0.
    destruct (glob_ref x (d_glob (m_data m1))) as [w|] eqn:GW; [|congruence].
    eapply done_ret; eauto. eapply arr_then; [exact A|..].
    - eapply quiet_one; [exact F|cbn [Vm.exec]; rewrite R0, ES; cbn [cell_set]; rewrite GW; reflexivity|..]; reflexivity.
    - reflexivity.
    - exact R'.
    - apply dkeeps_same; auto.
  Qed.

  Lemma case_set_err t r s x e y s1 : sim_eval prim t r s e (RErr y) s1 -> sim_eval prim t r s (ESet x e) (RErr y) s1.
  Proof.
    intros IH T P sc tl clean cs its cs' m PL CM EX H W TC CL CX. inversion CM; subst; [|discriminate]. simpl in W.
    assert (H' := here_tail _ _ _ _ H). destruct (here_app _ _ _ _ H') as [Ha Hb].
    apply (IH T P sc false clean _ _ _ m PL ltac:(eassumption) EX Ha W ltac:(discriminate)); [|exact CX].
    eapply closed_sub; eauto. apply set_incl.
  Qed.

  (** ** Sequences *)
  Lemma ext_left T (a b : list code) : (exists ext, T = ext ++ b) -> (exists ext, b = ext ++ a) -> exists ext, T = ext ++ a.
  Proof. intros A B. eapply ext_trans; eauto. Qed.
  Lemma comp_tmpls e sc tl s its s' : comp e sc tl s its s' -> exists ext, tmpls s' = ext ++ tmpls s.
  Proof. intros H. destruct comp_good as [G _]. apply G in H. apply H. Qed.
  Lemma cseq_tmpls es sc tl s its s' : cseq es sc tl s its s' -> exists ext, tmpls s' = ext ++ tmpls s.
  Proof. intros H. destruct comp_good as [_ [G _]]. apply G in H. apply H. Qed.
  Lemma cargs_tmpls es sc s its s' : cargs es sc s its s' -> exists ext, tmpls s' = ext ++ tmpls s.
  Proof. intros H. destruct comp_good as [_ [_ [G _]]]. apply G in H. apply H. Qed.
  Lemma cclauses_tmpls cls bounds fvs label ar s its label' ar' s' :
    cclauses cls bounds fvs label ar s its label' ar' s' -> exists ext, tmpls s' = ext ++ tmpls s.
  Proof.
    induction 1; [apply ext_refl|]. eapply ext_trans; [|exact IHcclauses]. apply cseq_tmpls in H1. exact H1.
  Qed.

  (** Continuing after an arrival. *)
  Lemma done_after tl n n' clean a b m vs s1 m1 x s2 :
    arr n clean a m vs s1 m1 -> done tl n' clean b m1 x s2 -> n <= n' -> done tl n clean (a ++ b) m x s2.
  Proof.
    intros A D L. destruct x as [ws|y]; simpl in *.
    - destruct tl.
      + destruct D as [m2 [B1 B2 B3 B4 B5 B6 B7 B8 B9]]. destruct A as [A1 A2 A3 A4 A5 A6 A7 A8 A9 A10 [K1 K2 K3 K4]].
        exists m2. constructor; auto; try congruence.
        * eapply reaches_trans; eauto.
        * intros i Li. rewrite B7 by lia. apply K1. lia.
        * intros j Lj N. assert (LL := gr_envs _ _ K4). rewrite B8; [auto|lia|congruence].
        * eapply grows_trans; eauto.
      + destruct D as [m2 B]. exists m2. eapply arr_seq; eauto.
    - eapply fails_after; [apply A|auto].
  Qed.

  Lemma case_seq_cons t r s e e' es vs s1 x s2 : sim_eval prim t r s e (RVals vs) s1 -> sim_seq prim t r s1 (e' :: es) x s2 ->
    sim_seq prim t r s (e :: e' :: es) x s2.
  Proof.
    intros IH1 IH2 T P sc tl clean cs its cs' m PL CM EX H W TC CL CX. inversion CM as [| |? ? ? ? ? ? its1 cs1 its2 ? C1 C2]; subst.
    cbn [forallb] in W. apply andb_true_iff in W. destruct W as [W1 W2].
    destruct (here_app _ _ _ _ H) as [Ha Hb]. cbn [bound_vars_seq] in CX. rewrite app_length in CX.
    destruct (IH1 T P sc false clean _ _ _ m PL C1) as [m1 A]; auto.
    { eapply ext_left; [exact EX|]. eapply cseq_tmpls; eauto. }
    { discriminate. }
    { apply CL. simpl. auto. }
    { eapply ctx_le; eauto. lia. }
    eapply done_after; [exact A| |auto].
    apply (IH2 T P sc tl clean _ _ _ m1) with (2 := C2); auto.
    - rewrite (ar_code _ _ _ _ _ _ _ _ A). auto.
    - rewrite (ar_pc _ _ _ _ _ _ _ _ A). auto.
    - intros b I. apply CL. right. auto.
    - eapply ctx_arr; [|exact A]. eapply ctx_le; eauto. cbn [bound_vars_seq]. rewrite app_length. lia.
  Qed.
  Lemma case_seq_err t r s e e' es y s1 : sim_eval prim t r s e (RErr y) s1 ->
    sim_seq prim t r s (e :: e' :: es) (RErr y) s1.
  Proof.
    intros IH1 T P sc tl clean cs its cs' m PL CM EX H W TC CL CX. inversion CM as [| |? ? ? ? ? ? its1 cs1 its2 ? C1 C2]; subst.
    cbn [forallb] in W. apply andb_true_iff in W. destruct W as [W1 W2].
    destruct (here_app _ _ _ _ H) as [Ha Hb]. cbn [bound_vars_seq] in CX. rewrite app_length in CX.
    apply (IH1 T P sc false clean _ _ _ m PL C1); auto.
    { eapply ext_left; [exact EX|]. eapply cseq_tmpls; eauto. }
    { discriminate. }
    { apply CL. simpl. auto. }
    { eapply ctx_le; eauto. lia. }
  Qed.
  Lemma case_seq_last t r s e x s1 : sim_eval prim t r s e x s1 -> sim_seq prim t r s [e] x s1.
  Proof.
    intros IH1 T P sc tl clean cs its cs' m PL CM EX H W TC CL CX. inversion CM as [|? ? ? ? ? ? C1|]; subst.
    cbn [forallb] in W. apply andb_true_iff in W. destruct W as [W1 W2]. cbn [bound_vars_seq] in CX. rewrite app_nil_r in CX.
    eapply IH1; eauto. apply CL. simpl. auto.
  Qed.
  Lemma case_seq_nil t r s : sim_seq prim t r s [] (RVals [VVoid]) s.
  Proof.
    intros T P sc tl clean cs its cs' m PL CM EX H W TC CL CX. inversion CM; subst. eapply sim_lit; eauto.
  Qed.
  Lemma case_begin t r s es x s1 : sim_seq prim t r s es x s1 -> sim_eval prim t r s (EBegin es) x s1.
  Proof.
    intros IH T P sc tl clean cs its cs' m PL CM EX H W TC CL CX. inversion CM; subst; [discriminate|].
    simpl in W. rewrite bound_vars_begin in CX. eapply IH; eauto.
    eapply closed_seq; eauto.
  Qed.

  (** ** Conditionals *)
  Lemma if_closed (top : bool) sc a b c : closed top sc (EIf a b c) -> closed top sc a /\ closed top sc b /\ closed top sc c.
  Proof.
    intros C. assert (H : forall b', In b' [a; b; c] -> closed top sc b') by (eapply closed_seq; [exact C|]; intros x I; rewrite fv_if; auto).
    split; [|split]; apply H; simpl; auto.
  Qed.
  Lemma if_wf i cl a b c : wf i cl (EIf a b c) = true -> wf i cl a = true /\ wf i cl b = true /\ wf i cl c = true.
  Proof. simpl. rewrite !andb_true_iff. tauto. Qed.
  Lemma if_bound a b c : List.length (bound_vars (EIf a b c)) =
    List.length (bound_vars a) + (List.length (bound_vars b) + List.length (bound_vars c)).
  Proof. simpl. rewrite !app_length. lia. Qed.

  Lemma goto_quiet m i t : nth_error (instrs_of (m_code m)) (m_pc m) = Some i -> exec i m = Next (goto m t) -> reaches m (goto m t).
  Proof. apply one. Qed.

  (** The state after a jump or a step without other effect, as an arrival. *)
  Lemma jump_done tl n clean its0 its m m1 x s' k :
    reaches m m1 -> m1 = goto m (m_pc m + k) ->
    done tl n clean its0 m1 x s' -> (tl = false -> k + ninstr its0 = ninstr its) -> done tl n clean its m x s'.
  Proof.
    intros RC E D K. destruct x as [vs|y]; simpl in *.
    - destruct tl.
      + destruct D as [m2 [B1 B2 B3 B4 B5 B6 B7 B8 B9]]. subst m1. exists m2. constructor; auto. eapply reaches_trans; eauto.
      + destruct D as [m2 [B1 B2 B3 B4 B5 B6 B7 B8 B9 B10 B11]]. subst m1. exists m2. specialize (K eq_refl).
        constructor; auto.
        * eapply reaches_trans; eauto.
        * rewrite B3. simpl. lia.
        * destruct B11 as [K1 K2 K3 K4]. constructor; auto.
    - eapply fails_after; eauto.
  Qed.
  Lemma extend_done tl n clean its0 its m x s' : (tl = false -> ninstr its0 = ninstr its) -> done tl n clean its0 m x s' -> done tl n clean its m x s'.
  Proof.
    intros K D. destruct x as [vs|y]; simpl in *; auto. destruct tl; auto.
    destruct D as [m2 [B1 B2 B3 B4 B5 B6 B7 B8 B9 B10 B11]]. exists m2. constructor; auto. rewrite <- K; auto.
  Qed.
  (** An arrival followed by a jump forward. *)
  Lemma arr_jump n clean its0 its m vs s' m1 t :
    arr n clean its0 m vs s' m1 -> nth_error (instrs_of (m_code m1)) (m_pc m1) = Some (Ibrancha t) -> t = m_pc m + ninstr its ->
    exists m2, arr n clean its m vs s' m2.
  Proof.
    intros [B1 B2 B3 B4 B5 B6 B7 B8 B9 B10 [K1 K2 K3 K4]] F E. exists (goto m1 t). constructor; auto.
    - eapply reaches_trans; [exact B1|]. eapply one; [exact F|reflexivity].
    - constructor; auto.
  Qed.

  Lemma case_if t r s a b c v s1 x s2 : sim_eval prim t r s a (RVals [v]) s1 ->
    (v <> VFalse /\ sim_eval prim t r s1 b x s2 \/ v = VFalse /\ sim_eval prim t r s1 c x s2) ->
    sim_eval prim t r s (EIf a b c) x s2.
  Proof.
    intros IH1 IH2 T P sc tl clean cs its cs' m PL CM EX H W TC CL CX.
    apply if_wf in W. destruct W as [Wa [Wb Wc]]. apply if_closed in CL. destruct CL as [Ca [Cb Cc]].
    rewrite if_bound in CX.
    inversion CM as [| | | | |? ? ? ? ? ? ? ? ? ? ? ? ? PO| | | | | | |? ? ? ? ? its1 cs1 its2 cs2 its3 cs3 C1 C2 C3|? ? ? ? ? its1 cs1 its2 cs2 its3 cs3 C1 C2 C3| |]; subst; [discriminate| |].
    - (* tail *)
      destruct (here_app _ _ _ _ H) as [Ha Hb].
      assert (X3 : exists ext, T = ext ++ tmpls cs3) by exact EX.
      assert (X2 : exists ext, T = ext ++ tmpls cs2) by (eapply ext_left; [exact X3|eapply comp_tmpls; eauto]).
      assert (X1 : exists ext, T = ext ++ tmpls cs1) by (eapply ext_left; [exact X2|eapply comp_tmpls; eauto]).
      destruct (IH1 T P sc false clean _ _ _ m PL C1 X1 Ha Wa ltac:(discriminate) Ca) as [m1 A].
      { eapply ctx_le; eauto. lia. }
      assert (CX1 := ctx_arr _ _ _ _ _ _ _ _ _ _ _ _ CX A).
      rewrite <- (ar_pc _ _ _ _ _ _ _ _ A) in Hb. assert (PL1 : placed (m_code m1) T P) by (rewrite (ar_code _ _ _ _ _ _ _ _ A); auto).
      assert (R0 := ar_res _ _ _ _ _ _ _ _ A). simpl in R0.
      destruct (here_fetch _ _ _ _ _ _ PL1 Hb) as [j [F RT]]. simpl in RT.
      apply (here_app P (m_pc m1) [ins (Ibranchf (labels cs3))]) in Hb. destruct Hb as [_ Hb]. simpl ninstr in Hb.
      destruct (here_app _ _ _ _ Hb) as [H2 H3].
      rewrite (here_labpos _ _ _ _ _ _ PL1 H3) in RT. simpl in RT. injection RT as <-.
      eapply done_after; [exact A| |auto].
      destruct IH2 as [[NV IH2]|[-> IH2]].
      + eapply (jump_done true _ _ its2 _ _ (goto m1 (m_pc m1 + 1)) _ _ 1); [|reflexivity| |discriminate].
        * eapply one; [exact F|]. cbn [Vm.exec]. rewrite R0, Nat.add_1_r. destruct v; try reflexivity. congruence.
        * apply (IH2 T P) with (2 := C2); auto. eapply ctx_le; [|instantiate (1 := List.length (bound_vars a) + (List.length (bound_vars b) + List.length (bound_vars c))); lia|left; eauto].
          destruct CX1. constructor; auto.
      + apply here_lab in H3.
        eapply (jump_done true _ _ its3 _ _ (goto m1 (m_pc m1 + 1 + ninstr its2)) _ _ (1 + ninstr its2)); [| | |discriminate].
        * eapply one; [exact F|]. cbn [Vm.exec]. rewrite R0. reflexivity.
        * f_equal. lia.
        * apply (IH2 T P) with (2 := C3); auto. eapply ctx_le; [|instantiate (1 := List.length (bound_vars a) + (List.length (bound_vars b) + List.length (bound_vars c))); lia|left; eauto].
          destruct CX1. constructor; auto.
    - (* not tail *)
      destruct (here_app _ _ _ _ H) as [Ha Hb].
      assert (X3 : exists ext, T = ext ++ tmpls cs3) by exact EX.
      assert (X2 : exists ext, T = ext ++ tmpls cs2) by (eapply ext_left; [exact X3|eapply comp_tmpls; eauto]).
      assert (X1 : exists ext, T = ext ++ tmpls cs1) by (eapply ext_left; [exact X2|eapply comp_tmpls; eauto]).
      destruct (IH1 T P sc false clean _ _ _ m PL C1 X1 Ha Wa ltac:(discriminate) Ca) as [m1 A].
      { eapply ctx_le; eauto. lia. }
      assert (CX1 := ctx_arr _ _ _ _ _ _ _ _ _ _ _ _ CX A).
      rewrite <- (ar_pc _ _ _ _ _ _ _ _ A) in Hb. assert (PL1 : placed (m_code m1) T P) by (rewrite (ar_code _ _ _ _ _ _ _ _ A); auto).
      assert (R0 := ar_res _ _ _ _ _ _ _ _ A). simpl in R0.
      destruct (here_fetch _ _ _ _ _ _ PL1 Hb) as [j [F RT]]. simpl in RT.
      apply (here_app P (m_pc m1) [ins (Ibranchf (labels cs3))]) in Hb. destruct Hb as [_ Hb]. simpl ninstr in Hb.
      destruct (here_app _ _ _ _ Hb) as [H2 H3].
      assert (H4 := H3). apply here_ins in H4.
      rewrite (here_labpos _ _ _ _ _ _ PL1 H4) in RT. simpl in RT. injection RT as <-.
      assert (H5 := here_lab _ _ _ _ H4). destruct (here_app _ _ _ _ H5) as [H6 H7].
      eapply done_after; [exact A| |auto].
      destruct IH2 as [[NV IH2]|[-> IH2]].
      + assert (D : done false (List.length sc) clean its2 (goto m1 (m_pc m1 + 1)) x s2).
        { apply (IH2 T P) with (2 := C2); auto. eapply ctx_le; [|instantiate (1 := List.length (bound_vars a) + (List.length (bound_vars b) + List.length (bound_vars c))); lia|left; eauto].
          destruct CX1. constructor; auto. }
        assert (RC : reaches m1 (goto m1 (m_pc m1 + 1))).
        { eapply one; [exact F|]. cbn [Vm.exec]. rewrite R0, Nat.add_1_r. destruct v; try reflexivity. congruence. }
        destruct x as [ws|y]; [|simpl in *; eapply fails_after; eauto].
        destruct D as [m2 B].
        destruct (here_fetch _ _ _ _ _ _ PL1 H3) as [j2 [F2 RT2]]. simpl in RT2.
        rewrite (here_labpos _ _ _ _ _ _ PL1 H7) in RT2. simpl in RT2. injection RT2 as <-.
        match type of F2 with _ = Some ?i2 => assert (FB : nth_error (instrs_of (m_code m2)) (m_pc m2) = Some i2) end.
        { rewrite (ar_code _ _ _ _ _ _ _ _ B), (ar_pc _ _ _ _ _ _ _ _ B). exact F2. }
        destruct (arr_jump _ _ _ (its2 ++ [ins (Ibrancha (S (labels cs3))); Lab (labels cs3)] ++ its3 ++ [Lab (S (labels cs3))]) _ _ _ _ _ B FB) as [m3 B'].
        { simpl. rewrite !ninstr_app. simpl. rewrite ninstr_app. simpl. lia. }
        eapply (jump_done false _ _ _ _ _ (goto m1 (m_pc m1 + 1)) _ _ 1); [exact RC|reflexivity|exists m3; exact B'|].
        intros _. reflexivity.
      + eapply (jump_done false _ _ its3 _ _ (goto m1 (S (m_pc m1 + 1 + ninstr its2))) _ _ (2 + ninstr its2)).
        * eapply one; [exact F|]. cbn [Vm.exec]. rewrite R0. reflexivity.
        * f_equal. lia.
        * apply (IH2 T P) with (2 := C3); auto. eapply ctx_le; [|instantiate (1 := List.length (bound_vars a) + (List.length (bound_vars b) + List.length (bound_vars c))); lia|left; eauto].
          destruct CX1. constructor; auto.
        * intros _. simpl. rewrite !ninstr_app. simpl. rewrite ninstr_app. simpl. lia.
  Qed.
  Lemma case_if_err t r s a b c y s1 : sim_eval prim t r s a (RErr y) s1 -> sim_eval prim t r s (EIf a b c) (RErr y) s1.
  Proof.
    intros IH1 T P sc tl clean cs its cs' m PL CM EX H W TC CL CX.
    apply if_wf in W. destruct W as [Wa [Wb Wc]]. apply if_closed in CL. destruct CL as [Ca [Cb Cc]].
    rewrite if_bound in CX.
    inversion CM as [| | | | |? ? ? ? ? ? ? ? ? ? ? ? ? PO| | | | | | |? ? ? ? ? its1 cs1 its2 cs2 its3 cs3 C1 C2 C3|? ? ? ? ? its1 cs1 its2 cs2 its3 cs3 C1 C2 C3| |]; subst; [discriminate| |].
    all: destruct (here_app _ _ _ _ H) as [Ha Hb];
      assert (X3 : exists ext, T = ext ++ tmpls cs3) by exact EX;
      assert (X2 : exists ext, T = ext ++ tmpls cs2) by (eapply ext_left; [exact X3|eapply comp_tmpls; eauto]);
      assert (X1 : exists ext, T = ext ++ tmpls cs1) by (eapply ext_left; [exact X2|eapply comp_tmpls; eauto]);
      apply (IH1 T P sc false clean _ _ _ m PL C1 X1 Ha Wa ltac:(discriminate) Ca);
      eapply ctx_le; eauto; lia.
  Qed.

  (** ** Arguments *)
  Lemma case_e1_val t r s e v s1 : sim_eval prim t r s e (RVals [v]) s1 -> sim_eval1 prim t r s e (inl v) s1.
  Proof. intros IH T P sc clean cs its cs' m PL CM EX H W CL CX. apply (IH T P sc false clean) with (2 := CM); auto. discriminate. Qed.
  Lemma case_e1_bad t r s e vs s1 : sim_eval prim t r s e (RVals vs) s1 -> List.length vs <> 1 ->
    sim_eval1 prim t r s e (inr (ErrResults 1 (List.length vs))) s1.
  Proof.
    intros IH L T P sc clean cs its cs' m PL CM EX H W CL CX. right.
    destruct (IH T P sc false clean _ _ _ m PL CM) as [m' A]; auto; [discriminate|]. exists vs, m'. auto.
  Qed.
  Lemma case_e1_err t r s e y s1 : sim_eval prim t r s e (RErr y) s1 -> sim_eval1 prim t r s e (inr y) s1.
  Proof.
    intros IH T P sc clean cs its cs' m PL CM EX H W CL CX. left.
    apply (IH T P sc false clean _ _ _ m PL CM); auto. discriminate.
  Qed.

  Lemma single_fail vs m k : res_ok vs m -> List.length vs <> 1 -> single m k = Fail (ErrResults 1 (List.length vs)) m.
  Proof.
    intros R L. unfold single. destruct vs as [|v [|w q]]; simpl in *; try congruence; destruct R as [-> [_ ->]]; reflexivity.
  Qed.

  (** A failure of an expression that must yield one value, when the result is
      checked by instruction [i]. *)
  Lemma e1_fails n clean its m y s1 i rest T P :
    placed (m_code m) T P -> here P (m_pc m) (its ++ ins i :: rest) ->
    (fails m y s1 \/ exists vs m', arr n clean its m vs s1 m' /\ List.length vs <> 1 /\ y = ErrResults 1 (List.length vs)) ->
    retarget (labpos 0 P) (template T) i = Some (match i with Ipush => Ipush | _ => Iset_proc end) ->
    (i = Ipush \/ i = Iset_proc) -> fails m y s1.
  Proof.
    intros PL H [F|[vs [m' [A [L ->]]]]] RT I; auto. exists m', m'. split; [apply A|]. split; [|apply A].
    assert (F : nth_error (instrs_of (m_code m')) (m_pc m') = Some (match i with Ipush => Ipush | _ => Iset_proc end)).
    { rewrite (ar_code _ _ _ _ _ _ _ _ A), (ar_pc _ _ _ _ _ _ _ _ A). eapply here_plain; eauto. apply here_mid; eauto. }
    rewrite (step_exec _ _ _ F). destruct I as [-> | ->]; cbn [Vm.exec]; apply single_fail; auto; apply A.
  Qed.

  Lemma case_args_nil t r s : sim_args prim t r s [] (inl []) s.
  Proof.
    intros T P sc cs its cs' m PL CM EX H W CL CX. inversion CM; subst. exists m. constructor; auto.
    - constructor.
    - intros [|j] v; discriminate.
    - apply CX.
    - apply keeps_simple; auto. apply grows_refl.
  Qed.

  Lemma case_args_cons t r s e es v s1 x s2 : sim_eval1 prim t r s e (inl v) s1 -> sim_args prim t r s1 es x s2 ->
    sim_args prim t r s (e :: es) (match x with inl vs => inl (v :: vs) | inr y => inr y end) s2.
  Proof.
    intros IH1 IH2 T P sc cs its cs' m PL CM EX H W CL CX. inversion CM as [|? ? ? ? its1 cs1 its2 ? C1 C2]; subst.
    cbn [forallb] in W. apply andb_true_iff in W. destruct W as [W1 W2].
    cbn [bound_vars_seq] in CX. rewrite app_length in CX.
    destruct (here_app _ _ _ _ H) as [Ha Hb].
    destruct (IH1 T P sc false _ _ _ m PL C1) as [m1 A]; auto.
    { eapply ext_left; [exact EX|]. eapply cargs_tmpls; eauto. }
    { apply CL. simpl. auto. }
    { eapply ctx_le; eauto. lia. }
    assert (CX1 := ctx_arr _ _ _ _ _ _ _ _ _ _ _ _ CX A).
    destruct A as [A1 A2 A3 A4 A5 A6 A7 A8 A9 A10 A11]. simpl in A9.
    assert (F : nth_error (instrs_of (m_code m1)) (m_pc m1) = Some Ipush) by (rewrite A2, A3; eapply here_plain; eauto).
    set (m2 := goto (set_stack m1 (upd_stk (S (m_sfp m1) + m_ac m1) (SVal v) (m_stk m1)) (S (m_ac m1))) (S (m_pc m1))).
    assert (R2 : reaches m m2).
    { eapply reaches_trans; [exact A1|]. eapply one; [exact F|]. cbn [Vm.exec]. unfold single. rewrite A9. reflexivity. }
    assert (IH2' : match x with inl vs => exists m', pushed (List.length sc) its2 m2 vs s2 m' | inr y => fails m2 y s2 end).
    { apply (IH2 T P sc _ _ _ m2) with (2 := C2); auto.
      - simpl. rewrite A2. auto.
      - simpl. rewrite A3. apply (here_ins _ _ Ipush). exact Hb.
      - intros b I. apply CL. right. auto.
      - eapply (ctx_le t false). 2:{ instantiate (1 := List.length (bound_vars e) + List.length (bound_vars_seq es)). lia. }
        { destruct CX1 as [E1 E2 E3]. constructor; auto; try discriminate. } all: discriminate. }
    destruct x as [vs|y]; [|eapply fails_after; eauto].
    destruct IH2' as [m3 [B1 B2 B3 B4 B5 B6 B7 B8 B9 B10 B11]]. exists m3. simpl in *.
    constructor; try congruence; auto.
    - eapply reaches_trans; eauto.
    - rewrite B3, A3. rewrite !ninstr_app. simpl. lia.
    - rewrite B7, A7. simpl. lia.
    - rewrite B8. auto.
    - intros [|j] w N; simpl in N.
      + injection N as <-. rewrite (kp_stk _ _ _ _ B11) by (simpl; rewrite A4, A7; lia). simpl. unfold upd_stk.
        rewrite A4, A7. rewrite Nat.add_0_r, Nat.eqb_refl. reflexivity.
      + rewrite <- (B9 _ _ N). f_equal. lia.
    - eapply (keeps_trans _ (List.length sc) _ (m_sfp m1 + m_ac m1)); [exact A11| |auto|lia|auto].
      destruct B11 as [K1 K2 K3 K4]. simpl in *. constructor; auto.
      intros i Li. rewrite K1 by lia. unfold upd_stk. destruct (Nat.eqb_spec i (S (m_sfp m1 + m_ac m1))); [lia|auto].
  Qed.

  Lemma case_args_err t r s e es y s1 : sim_eval1 prim t r s e (inr y) s1 -> sim_args prim t r s (e :: es) (inr y) s1.
  Proof.
    intros IH1 T P sc cs its cs' m PL CM EX H W CL CX. inversion CM as [|? ? ? ? its1 cs1 its2 ? C1 C2]; subst.
    cbn [forallb] in W. apply andb_true_iff in W. destruct W as [W1 W2].
    cbn [bound_vars_seq] in CX. rewrite app_length in CX.
    destruct (here_app _ _ _ _ H) as [Ha Hb].
    eapply (e1_fails _ _ its1 _ _ _ Ipush); [exact PL|exact H| |reflexivity|auto].
    apply (IH1 T P sc false _ _ _ m PL C1); auto.
    { eapply ext_left; [exact EX|]. eapply cargs_tmpls; eauto. }
    { apply CL. simpl. auto. }
    { eapply ctx_le; eauto. lia. }
  Qed.

  (** ** Calls *)

  (** A state about to apply [f] to [vs]. *)
  Record ready (n : nat) (m : mst) (f : val) (vs : list val) (s : store) (mA : mst) : Prop := Ready {
    rd_run : reaches m mA;
    rd_at : nth_error (instrs_of (m_code mA)) (m_pc mA) = Some Iapply;
    rd_sfp : m_sfp mA = m_sfp m;
    rd_cc : m_cc mA = m_cc m;
    rd_env : m_env mA = m_env m;
    rd_cp : m_cp mA = RV f;
    rd_args : frame_args mA = Some vs;
    rd_rel : drel s (m_data mA);
    rd_keep : keeps n (m_sfp m) m mA }.

  Lemma tail_call n clean its m f vs s mA x s' :
    ready n m f vs s mA -> sim_apply prim s f vs x s' -> done true n clean its m x s'.
  Proof.
    intros [A1 A2 A3 A4 A5 A6 A7 A8 [K1 K2 K3 K4]] AP. specialize (AP mA A6 A7 A8).
    assert (SA : step mA = do_application mA) by (rewrite (step_exec _ _ _ A2); reflexivity).
    destruct x as [ws|y]; simpl.
    - destruct AP as [m1 [m' [B1 B2 B3 B4 B5 B6 B7 B8 B9 B10]]]. exists m'. constructor; auto; try congruence.
      + eapply reaches_trans; [exact A1|]. econstructor; [rewrite SA; exact B1|exact B2].
      + intros i L. rewrite B8 by congruence. rewrite A3 in *. auto.
      + intros j L N. assert (LL := gr_envs _ _ K4). rewrite B9 by lia. auto.
      + eapply grows_trans; eauto.
    - destruct AP as [m3 [D [F|[m1 [m2 [B1 [B2 B3]]]]]]].
      + exists mA, m3. split; auto. split; auto. congruence.
      + exists m2, m3. split; auto. eapply reaches_trans; [exact A1|]. econstructor; [rewrite SA; exact B1|exact B2].
  Qed.

  (** The state after Isave_cc. *)
  Definition saved (m : mst) (t : nat) : mst :=
    M (m_code m) (S (m_pc m)) (m_r0 m) (m_t0 m) (RV VVoid) 0 (m_sfp m + (1 + m_ac m))
      (upd_stk (m_sfp m + (1 + m_ac m)) (SRa (Some (m_code m, t))) (m_stk m))
      (Cont (m_env m) (m_sfp m) (m_cp m) (m_ac m) :: m_cc m) (m_env m) (m_vc m) (m_vals m) (m_data m).

  Lemma inner_call n clean its m t f vs s mA x s' :
    nth_error (instrs_of (m_code m)) (m_pc m) = Some (Isave_cc t) -> t = m_pc m + ninstr its ->
    ready n (saved m t) f vs s mA -> sim_apply prim s f vs x s' -> done false n clean its m x s'.
  Proof.
    intros F ET [A1 A2 A3 A4 A5 A6 A7 A8 [K1 K2 K3 K4]] AP. specialize (AP mA A6 A7 A8).
    assert (SA : step mA = do_application mA) by (rewrite (step_exec _ _ _ A2); reflexivity).
    assert (S1 : reaches m (saved m t)) by (eapply one; [exact F|reflexivity]).
    destruct x as [ws|y]; simpl.
    - destruct AP as [m1 [m' [B1 B2 B3 B4 B5 B6 B7 B8 B9 B10]]].
      assert (SF : m_sfp m' = m_sfp m + (1 + m_ac m)) by (rewrite B4, A3; reflexivity).
      assert (ST : m_stk m' (m_sfp m') = SRa (Some (m_code m, t))).
      { rewrite B8 by lia. rewrite B4, A3. rewrite K1 by (simpl; lia). simpl. unfold upd_stk. rewrite Nat.eqb_refl. reflexivity. }
      set (m2 := M (m_code m) t (m_r0 m') (m_t0 m') (m_cp m) (m_ac m) (m_sfp m) (m_stk m') (m_cc m) (m_env m) (m_vc m') (m_vals m') (m_data m')).
      assert (SR : step m' = Next m2).
      { rewrite (step_exec _ _ _ B3). cbn [Vm.exec]. destruct (Nat.eqb_spec (m_sfp m') 0); [lia|].
        rewrite ST, B5, A4. reflexivity. }
      exists m2. constructor; auto.
      + eapply reaches_trans; [exact S1|]. eapply reaches_trans; [exact A1|]. econstructor; [rewrite SA; exact B1|].
        eapply reaches_trans; [exact B2|]. apply reaches_one. exact SR.
      + constructor.
        * intros i L. simpl. rewrite B8 by (rewrite A3; simpl; lia). rewrite K1 by (simpl; lia). simpl. unfold upd_stk.
          destruct (Nat.eqb_spec i (m_sfp m + S (m_ac m))); [lia|auto].
        * intros j L N. simpl. assert (LL := gr_envs _ _ K4). simpl in LL. rewrite B9 by lia. apply K2; auto.
        * intros sl N. simpl. destruct (K3 sl N) as [sl' [N' X]]. exists sl'. split; auto. rewrite B9; auto.
          assert (LL := gr_envs _ _ K4). simpl in LL. apply nth_some_lt in N. lia.
        * simpl. eapply grows_trans; [exact K4|auto].
    - destruct AP as [m3 [D [FF|[m1 [m2 [B1 [B2 B3]]]]]]].
      + exists mA, m3. split; [eapply reaches_trans; eauto|]. split; auto. congruence.
      + exists m2, m3. split; auto. eapply reaches_trans; [exact S1|]. eapply reaches_trans; [exact A1|].
        econstructor; [rewrite SA; exact B1|exact B2].
  Qed.

  Lemma saved_ctx top clean sc n r s m t : ctx top clean sc n r s m -> ctx top true sc n r s (saved m t).
  Proof. intros [E1 E2 E3]. constructor; auto. Qed.

  (** Operator and operands. *)
  Lemma app_ready t r s f es fv s1 vs s2 T P sc cs its1 cs1 its2 cs2 m post :
    sim_eval1 prim t r s f (inl fv) s1 -> sim_args prim t r s1 es (inl vs) s2 ->
    placed (m_code m) T P -> comp f sc false cs its1 cs1 -> cargs es sc cs1 its2 cs2 -> (exists ext, T = ext ++ tmpls cs2) ->
    here P (m_pc m) (its1 ++ [ins Iset_proc; ins (Icheck_stack (List.length es))] ++ its2 ++ ins Iapply :: post) ->
    wf (negb t) true f = true -> forallb (wf (negb t) false) es = true -> closed t sc (EApp f es) ->
    ctx t true sc (List.length (bound_vars f) + List.length (bound_vars_seq es)) r s m ->
    exists mA, ready (List.length sc) m fv vs s2 mA.
  Proof.
    intros IH1 IH2 PL C1 C2 EX H W1 W2 CL CX.
    destruct (here_app _ _ _ _ H) as [Ha Hb].
    destruct (IH1 T P sc true _ _ _ m PL C1) as [m1 A]; auto.
    { eapply ext_left; [exact EX|]. eapply cargs_tmpls; eauto. }
    { eapply closed_sub; eauto. intros x I. rewrite fv_app. apply fv_seq_In. auto. }
    { eapply ctx_le; eauto. lia. }
    assert (CX1 := ctx_arr _ _ _ _ _ _ _ _ _ _ _ _ CX A).
    destruct A as [A1 A2 A3 A4 A5 A6 A7 A8 A9 A10 A11]. simpl in A9.
    assert (F1 : nth_error (instrs_of (m_code m1)) (m_pc m1) = Some Iset_proc) by (rewrite A2, A3; eapply here_plain; eauto).
    set (m2 := goto (set_cp m1 (RV fv) (m_ac m1)) (S (m_pc m1))).
    assert (R2 : reaches m m2).
    { eapply reaches_trans; [exact A1|]. eapply one; [exact F1|]. cbn [Vm.exec]. unfold single. rewrite A9. reflexivity. }
    rewrite <- A3 in Hb. assert (Hc := here_ins _ _ _ _ Hb).
    assert (F2 : nth_error (instrs_of (m_code m2)) (m_pc m2) = Some (Icheck_stack (List.length es))).
    { change (nth_error (instrs_of (m_code m1)) (S (m_pc m1)) = Some (Icheck_stack (List.length es))). rewrite A2. eapply here_plain; eauto. }
    set (m3 := goto m2 (S (m_pc m2))).
    assert (R3 : reaches m m3).
    { eapply reaches_trans; [exact R2|]. eapply one; [exact F2|]. reflexivity. }
    assert (Hd := here_ins _ _ _ _ Hc). destruct (here_app _ _ _ _ Hd) as [He Hf].
    assert (PL3 : placed (m_code m3) T P) by (change (placed (m_code m1) T P); rewrite A2; auto).
    destruct (IH2 T P sc _ _ _ m3 PL3 C2) as [m4 B]; [exact EX|exact He|exact W2| | |].
    { intros b I. eapply closed_sub; eauto. intros x J. rewrite fv_app. apply fv_seq_In. right. exists b. auto. }
    { eapply (ctx_le t false). 2:{ instantiate (1 := List.length (bound_vars f) + List.length (bound_vars_seq es)). lia. }
      { destruct CX1 as [E1 E2 E3]. constructor; auto; try discriminate. } all: discriminate. }
    destruct B as [B1 B2 B3 B4 B5 B6 B7 B8 B9 B10 B11]. simpl in *.
    assert (AC : m_ac m1 = 0) by (apply CX1; auto).
    exists m4. constructor; try congruence.
    - eapply reaches_trans; eauto.
    - rewrite B2, B3. rewrite A2. eapply here_plain; eauto.
    - unfold frame_args. apply args_from_spec. rewrite B7, AC. split; [lia|]. intros j v N. rewrite <- (B9 _ _ N). f_equal. lia.
    - eapply (keeps_trans _ (List.length sc) _ (m_sfp m1 + m_ac m1)); [eapply keeps_weak; [exact A11|lia|lia]| |auto|lia|auto].
      destruct B11 as [K1 K2 K3 K4]. simpl in *. constructor; auto.
  Qed.

  Lemma app_fails t r s f es y s1 T P sc cs its1 cs1 its2 cs2 m post :
    (sim_eval1 prim t r s f (inr y) s1 \/ exists fv s0, sim_eval1 prim t r s f (inl fv) s0 /\ sim_args prim t r s0 es (inr y) s1) ->
    placed (m_code m) T P -> comp f sc false cs its1 cs1 -> cargs es sc cs1 its2 cs2 -> (exists ext, T = ext ++ tmpls cs2) ->
    here P (m_pc m) (its1 ++ [ins Iset_proc; ins (Icheck_stack (List.length es))] ++ its2 ++ ins Iapply :: post) ->
    wf (negb t) true f = true -> forallb (wf (negb t) false) es = true -> closed t sc (EApp f es) ->
    ctx t true sc (List.length (bound_vars f) + List.length (bound_vars_seq es)) r s m ->
    fails m y s1.
  Proof.
    intros IH PL C1 C2 EX H W1 W2 CL CX.
    destruct (here_app _ _ _ _ H) as [Ha Hb].
    assert (EX1 : exists ext, T = ext ++ tmpls cs1) by (eapply ext_left; [exact EX|]; eapply cargs_tmpls; eauto).
    assert (CL1 : closed t sc f) by (eapply closed_sub; eauto; intros x I; rewrite fv_app; apply fv_seq_In; auto).
    assert (CX0 : ctx t true sc (List.length (bound_vars f)) r s m) by (eapply ctx_le; eauto; lia).
    destruct IH as [IH|[fv [s0 [IH1 IH2]]]].
    { eapply (e1_fails _ _ its1 _ _ _ Iset_proc); [exact PL|exact H| |reflexivity|auto].
      eapply (IH T P sc true); eauto. }
    destruct (IH1 T P sc true _ _ _ m PL C1 EX1 Ha W1 CL1 CX0) as [m1 A].
    assert (CX1 := ctx_arr _ _ _ _ _ _ _ _ _ _ _ _ CX A).
    destruct A as [A1 A2 A3 A4 A5 A6 A7 A8 A9 A10 A11]. simpl in A9.
    assert (F1 : nth_error (instrs_of (m_code m1)) (m_pc m1) = Some Iset_proc) by (rewrite A2, A3; eapply here_plain; eauto).
    set (m2 := goto (set_cp m1 (RV fv) (m_ac m1)) (S (m_pc m1))).
    assert (R2 : reaches m m2).
    { eapply reaches_trans; [exact A1|]. eapply one; [exact F1|]. cbn [Vm.exec]. unfold single. rewrite A9. reflexivity. }
    rewrite <- A3 in Hb. assert (Hc := here_ins _ _ _ _ Hb).
    assert (F2 : nth_error (instrs_of (m_code m2)) (m_pc m2) = Some (Icheck_stack (List.length es))).
    { change (nth_error (instrs_of (m_code m1)) (S (m_pc m1)) = Some (Icheck_stack (List.length es))). rewrite A2. eapply here_plain; eauto. }
    set (m3 := goto m2 (S (m_pc m2))).
    assert (R3 : reaches m m3).
    { eapply reaches_trans; [exact R2|]. eapply one; [exact F2|]. reflexivity. }
    assert (Hd := here_ins _ _ _ _ Hc). destruct (here_app _ _ _ _ Hd) as [He Hf].
    eapply fails_after; [exact R3|].
    apply (IH2 T P sc _ _ _ m3) with (2 := C2); auto.
    - simpl; rewrite A2; auto.
    - intros b I. eapply closed_sub; [exact CL|]. intros x J. rewrite fv_app. apply fv_seq_In. right. exists b. auto.
    - eapply (ctx_le t false). 2:{ instantiate (1 := List.length (bound_vars f) + List.length (bound_vars_seq es)). lia. }
      { destruct CX1 as [E1 E2 E3]. constructor; auto; try discriminate. } all: discriminate.
  Qed.

  Lemma app_wf i cl f es : wf i cl (EApp f es) = true -> wf i true f = true /\ forallb (wf i false) es = true.
  Proof. simpl. apply andb_true_iff. Qed.

  Lemma case_app t r s f es fv s1 vs s2 x s3 :
    sim_eval1 prim t r s f (inl fv) s1 -> sim_args prim t r s1 es (inl vs) s2 -> sim_apply prim s2 fv vs x s3 ->
    sim_eval prim t r s (EApp f es) x s3.
  Proof.
    intros IH1 IH2 IH3 T P sc tl clean cs its cs' m PL CM EX H W TC CL CX.
    apply app_wf in W. destruct W as [W1 W2]. rewrite bound_vars_app, app_length in CX.
    inversion CM as [| | | | |? ? ? ? ? ? ? ? ? ? ? ? ? PO| | | | | | | | |? ? ? ? its1 cs1 its2 ? C1 C2|? ? ? ? its1 cs1 its2 ? C1 C2]; subst; [discriminate| |].
    - destruct (app_ready t r s f es fv s1 vs s2 T P sc _ _ _ _ _ m [] IH1 IH2 PL C1 C2 EX H W1 W2 CL) as [mA RD].
      { eapply ctx_le; eauto. }
      eapply tail_call; eauto.
    - destruct (here_fetch _ _ _ _ _ _ PL H) as [j [F RT]]. simpl in RT.
      assert (H' := here_ins _ _ _ _ H).
      destruct (labpos 0 P (labels cs)) as [t0|] eqn:LP; [|discriminate]. simpl in RT. injection RT as <-.
      assert (HL := H'). rewrite !app_assoc in HL. rewrite <- app_assoc in HL. apply here_mid in HL. 
      destruct (app_ready t r s f es fv s1 vs s2 T P sc _ _ _ _ _ (saved m t0) [Lab (labels cs)] IH1 IH2 PL C1 C2 EX H' W1 W2 CL) as [mA RD].
      { eapply saved_ctx; eauto. }
      eapply inner_call; eauto.
      apply here_ins in HL. rewrite (here_labpos _ _ _ _ _ _ PL HL) in LP. injection LP as <-.
      repeat (rewrite ?ninstr_app; simpl). lia.
  Qed.
  Lemma case_app_err t r s f es y s1 :
    (sim_eval1 prim t r s f (inr y) s1 \/ exists fv s0, sim_eval1 prim t r s f (inl fv) s0 /\ sim_args prim t r s0 es (inr y) s1) ->
    sim_eval prim t r s (EApp f es) (RErr y) s1.
  Proof.
    intros IH T P sc tl clean cs its cs' m PL CM EX H W TC CL CX.
    apply app_wf in W. destruct W as [W1 W2]. rewrite bound_vars_app, app_length in CX.
    inversion CM as [| | | | |? ? ? ? ? ? ? ? ? ? ? ? ? PO| | | | | | | | |? ? ? ? its1 cs1 its2 ? C1 C2|? ? ? ? its1 cs1 its2 ? C1 C2]; subst; [discriminate| |].
    - eapply (app_fails t r s f es y s1 T P sc _ _ _ _ _ m []); eauto. eapply ctx_le; eauto.
    - destruct (here_fetch _ _ _ _ _ _ PL H) as [j [F RT]]. simpl in RT.
      assert (H' := here_ins _ _ _ _ H).
      destruct (labpos 0 P (labels cs)) as [t0|] eqn:LP; [|discriminate]. simpl in RT. injection RT as <-.
      eapply fails_after; [eapply (one _ _ _ (saved m t0)); [exact F|reflexivity]|].
      eapply (app_fails t r s f es y s1 T P sc _ _ _ _ _ (saved m t0) [Lab (labels cs)]); eauto. eapply saved_ctx; eauto.
  Qed.

  (** ** Producer and consumer *)
  Lemma mvcall_ready t r s p c vs s1 x s2 T P sc cs its1 cs1 its2 cs2 m post :
    sim_eval prim t r s p (RVals vs) s1 -> sim_eval1 prim t r s1 c x s2 ->
    placed (m_code m) T P -> comp p sc false cs its1 cs1 -> comp c sc false cs1 its2 cs2 -> (exists ext, T = ext ++ tmpls cs2) ->
    here P (m_pc m) (its1 ++ [ins Iclear_frame; ins Ido_with_values] ++ its2 ++ ins Iset_proc :: ins Iapply :: post) ->
    wf (negb t) true p = true -> wf (negb t) false c = true -> closed t sc (EMvCall p c) ->
    ctx t true sc (List.length (bound_vars p) + List.length (bound_vars c)) r s m ->
    match x with inl fv => exists mA, ready (List.length sc) m fv vs s2 mA | inr y => fails m y s2 end.
  Proof.
    intros IH1 IH2 PL C1 C2 EX H W1 W2 CL CX.
    destruct (here_app _ _ _ _ H) as [Ha Hb].
    destruct (IH1 T P sc false true _ _ _ m PL C1) as [m1 A]; auto; try discriminate.
    { eapply ext_left; [exact EX|]. eapply comp_tmpls; eauto. }
    { eapply closed_sub; [exact CL|]. intros y I. rewrite fv_mvcall. apply fv_seq_In. simpl; eauto 6. }
    { eapply ctx_le; eauto. lia. }
    assert (CX1 := ctx_arr _ _ _ _ _ _ _ _ _ _ _ _ CX A).
    destruct A as [A1 A2 A3 A4 A5 A6 A7 A8 A9 A10 A11].
    assert (AC : m_ac m1 = 0) by (apply CX1; auto).
    assert (F1 : nth_error (instrs_of (m_code m1)) (m_pc m1) = Some Iclear_frame) by (rewrite A2, A3; eapply here_plain; eauto).
    set (m2 := goto (set_cp m1 RNull 0) (S (m_pc m1))).
    assert (R2 : reaches m m2).
    { eapply reaches_trans; [exact A1|]. eapply one; [exact F1|]. reflexivity. }
    rewrite <- A3 in Hb. assert (Hc := here_ins _ _ _ _ Hb).
    assert (F2 : nth_error (instrs_of (m_code m2)) (m_pc m2) = Some Ido_with_values).
    { change (nth_error (instrs_of (m_code m1)) (S (m_pc m1)) = Some Ido_with_values). rewrite A2. eapply here_plain; eauto. }
    set (m3 := goto (set_stack m2 (push_all (m_stk m1) (S (m_sfp m1) + 0) vs) (0 + List.length vs)) (S (m_pc m2))).
    assert (R3 : reaches m m3).
    { eapply reaches_trans; [exact R2|]. eapply one; [exact F2|]. cbn [Vm.exec].
      assert (RV' : result_vals m2 = Some vs) by (apply res_vals; exact A9). rewrite RV'. reflexivity. }
    assert (Hd := here_ins _ _ _ _ Hc). destruct (here_app _ _ _ _ Hd) as [He Hf].
    assert (PL3 : placed (m_code m3) T P) by (change (placed (m_code m1) T P); rewrite A2; auto).
    assert (B : match x with
      | inl v => exists m', arr (List.length sc) false its2 m3 [v] s2 m'
      | inr y => fails m3 y s2 \/ exists ws m', arr (List.length sc) false its2 m3 ws s2 m' /\ List.length ws <> 1 /\ y = ErrResults 1 (List.length ws)
      end).
    { apply (IH2 T P sc false _ _ _ m3 PL3 C2); auto.
      - eapply closed_sub; [exact CL|]. intros y I. rewrite fv_mvcall. apply fv_seq_In. simpl; eauto 6.
      - eapply (ctx_le t false). 2:{ instantiate (1 := List.length (bound_vars p) + List.length (bound_vars c)). lia. }
        { destruct CX1 as [E1 E2 E3]. constructor; auto; try discriminate. } all: discriminate. }
    destruct x as [fv|y].
    2:{ eapply fails_after; [exact R3|].
        eapply (e1_fails _ _ its2 _ _ _ Iset_proc); [exact PL3|exact Hd|exact B|reflexivity|auto]. }
    destruct B as [m4 [B1 B2 B3 B4 B5 B6 B7 B8 B9 B10 B11]]. simpl in *. specialize (B8 eq_refl).
    assert (F4 : nth_error (instrs_of (m_code m4)) (m_pc m4) = Some Iset_proc) by (rewrite B2, A2, B3; eapply here_plain; eauto).
    set (m5 := goto (set_cp m4 (RV fv) (m_ac m4)) (S (m_pc m4))).
    assert (R5 : reaches m m5).
    { eapply reaches_trans; [exact R3|]. eapply reaches_trans; [exact B1|]. eapply one; [exact F4|].
      cbn [Vm.exec]. unfold single. rewrite B9. reflexivity. }
    assert (F5 : nth_error (instrs_of (m_code m4)) (S (m_pc m4)) = Some Iapply).
    { rewrite B2, A2, B3. apply here_ins in Hf. eapply here_plain; eauto. }
    exists m5. constructor; auto; try (simpl; congruence).
    - change (args_from (m_stk m4) (S (m_sfp m4)) (m_ac m4) = Some vs).
      rewrite B7, B4. rewrite (args_from_ext _ (push_all (m_stk m1) (S (m_sfp m1) + 0) vs)).
      + rewrite Nat.add_0_r. apply push_all_args.
      + intros j L. rewrite (kp_stk _ _ _ _ B11); [reflexivity|]. simpl. lia.
    - eapply (keeps_trans _ (List.length sc) _ (m_sfp m1 + 0)); [eapply keeps_weak; [exact A11|lia|lia]| |auto|lia|auto].
      destruct B11 as [K1 K2 K3 K4]. simpl in *. constructor; auto.
      intros i L. simpl. rewrite K1 by lia. apply push_all_low. lia.
  Qed.

  Lemma mvcall_fails t r s p c y s1 T P sc cs its1 cs1 its2 cs2 m post :
    sim_eval prim t r s p (RErr y) s1 ->
    placed (m_code m) T P -> comp p sc false cs its1 cs1 -> comp c sc false cs1 its2 cs2 -> (exists ext, T = ext ++ tmpls cs2) ->
    here P (m_pc m) (its1 ++ post) ->
    wf (negb t) true p = true -> closed t sc (EMvCall p c) ->
    ctx t true sc (List.length (bound_vars p) + List.length (bound_vars c)) r s m -> fails m y s1.
  Proof.
    intros IH1 PL C1 C2 EX H W1 CL CX.
    destruct (here_app _ _ _ _ H) as [Ha Hb].
    apply (IH1 T P sc false true _ _ _ m PL C1); auto; try discriminate.
    { eapply ext_left; [exact EX|]. eapply comp_tmpls; eauto. }
    { eapply closed_sub; [exact CL|]. intros x I. rewrite fv_mvcall. apply fv_seq_In. simpl; eauto 6. }
    { eapply ctx_le; eauto. lia. }
  Qed.

  Lemma mvcall_wf i cl p c : wf i cl (EMvCall p c) = true -> wf i true p = true /\ wf i false c = true.
  Proof. simpl. apply andb_true_iff. Qed.
  Lemma mvcall_bound p c : List.length (bound_vars (EMvCall p c)) = List.length (bound_vars p) + List.length (bound_vars c).
  Proof. simpl. apply app_length. Qed.

  Lemma case_mvcall t r s p c vs s1 fv s2 x s3 :
    sim_eval prim t r s p (RVals vs) s1 -> sim_eval1 prim t r s1 c (inl fv) s2 -> sim_apply prim s2 fv vs x s3 ->
    sim_eval prim t r s (EMvCall p c) x s3.
  Proof.
    intros IH1 IH2 IH3 T P sc tl clean cs its cs' m PL CM EX H W TC CL CX.
    apply mvcall_wf in W. destruct W as [W1 W2]. rewrite mvcall_bound in CX.
    inversion CM as [| | | | |? ? ? ? ? ? ? ? ? ? ? ? ? PO|? ? ? ? its1 cs1 its2 ? C1 C2|? ? ? ? its1 cs1 its2 ? C1 C2| | | | | | | | ]; subst; [discriminate| |].
    - destruct (mvcall_ready t r s p c vs s1 _ s2 T P sc _ _ _ _ _ m [] IH1 IH2 PL C1 C2 EX H W1 W2 CL) as [mA RD].
      { eapply ctx_le; eauto. }
      eapply tail_call; eauto.
    - destruct (here_fetch _ _ _ _ _ _ PL H) as [j [F RT]]. simpl in RT.
      assert (H' := here_ins _ _ _ _ H).
      destruct (labpos 0 P (labels cs)) as [t0|] eqn:LP; [|discriminate]. simpl in RT. injection RT as <-.
      assert (HL := H'). rewrite !app_assoc in HL. rewrite <- app_assoc in HL. apply here_mid in HL. 
      destruct (mvcall_ready t r s p c vs s1 _ s2 T P sc _ _ _ _ _ (saved m t0) [Lab (labels cs)] IH1 IH2 PL C1 C2 EX H' W1 W2 CL) as [mA RD].
      { eapply saved_ctx; eauto. }
      eapply inner_call; eauto.
      apply here_ins in HL. apply here_ins in HL. rewrite (here_labpos _ _ _ _ _ _ PL HL) in LP. injection LP as <-.
      repeat (rewrite ?ninstr_app; simpl). lia.
  Qed.
  Lemma case_mvcall_err t r s p c y s1 :
    (sim_eval prim t r s p (RErr y) s1 \/ exists vs s0, sim_eval prim t r s p (RVals vs) s0 /\ sim_eval1 prim t r s0 c (inr y) s1) ->
    sim_eval prim t r s (EMvCall p c) (RErr y) s1.
  Proof.
    intros IH T P sc tl clean cs its cs' m PL CM EX H W TC CL CX.
    apply mvcall_wf in W. destruct W as [W1 W2]. rewrite mvcall_bound in CX.
    inversion CM as [| | | | |? ? ? ? ? ? ? ? ? ? ? ? ? PO|? ? ? ? its1 cs1 its2 ? C1 C2|? ? ? ? its1 cs1 its2 ? C1 C2| | | | | | | | ]; subst; [discriminate| |].
    - assert (CX' : ctx t true sc (List.length (bound_vars p) + List.length (bound_vars c)) r s m) by (eapply ctx_le; eauto).
      destruct IH as [IH|[vs [s0 [IH1 IH2]]]].
      + eapply mvcall_fails; eauto.
      + exact (mvcall_ready t r s p c vs s0 _ s1 T P sc _ _ _ _ _ m [] IH1 IH2 PL C1 C2 EX H W1 W2 CL CX').
    - destruct (here_fetch _ _ _ _ _ _ PL H) as [j [F RT]]. simpl in RT.
      assert (H' := here_ins _ _ _ _ H).
      destruct (labpos 0 P (labels cs)) as [t0|] eqn:LP; [|discriminate]. simpl in RT. injection RT as <-.
      eapply fails_after; [eapply (one _ _ _ (saved m t0)); [exact F|reflexivity]|].
      assert (CX' := saved_ctx _ _ _ _ _ _ _ t0 CX).
      destruct IH as [IH|[vs [s0 [IH1 IH2]]]].
      + eapply (mvcall_fails t r s p c y s1 T P sc _ _ _ _ _ (saved m t0)); eauto.
      + exact (mvcall_ready t r s p c vs s0 _ s1 T P sc _ _ _ _ _ (saved m t0) [Lab (labels cs)] IH1 IH2 PL C1 C2 EX H' W1 W2 CL CX').
  Qed.

  (** ** Binding several values *)
  Lemma mvlet_closed (top : bool) sc e xs body : closed top sc (EMvLet e (Formals xs None) body) ->
    closed top sc e /\ closed top (rev xs ++ sc) body.
  Proof.
    intros C. split.
    - eapply closed_sub; [exact C|]. intros x I. simpl. apply merge_fvs_In. right. auto.
    - intros E x I. apply in_app_iff. destruct (in_dec ident_dec x xs) as [J|J]; [left; apply in_rev in J; auto|right].
      apply C; auto. simpl. apply merge_fvs_In. left. apply remove_fvs_In. split; auto.
      unfold formals_ids. simpl. rewrite ?app_nil_r. auto.
  Qed.
  Lemma mvlet_bound e xs body :
    List.length (bound_vars (EMvLet e (Formals xs None) body)) = List.length (bound_vars e) + (List.length xs + List.length (bound_vars body)).
  Proof. simpl. rewrite !app_length. unfold formals_ids. simpl. rewrite ?app_nil_r. lia. Qed.

  Lemma case_mvlet t r s e xs body vs s1 x s2 :
    sim_eval prim t r s e (RVals vs) s1 -> List.length vs = List.length xs ->
    sim_eval prim t (bind_env xs (List.length (cells_of s1)) r) (add_cells vs s1) body x s2 ->
    sim_eval prim t r s (EMvLet e (Formals xs None) body) x s2.
  Proof.
    intros IH1 LV IH2 T P sc tl clean cs its cs' m PL CM EX H W TC CL CX.
    inversion CM as [| | | | |? ? ? ? ? ? ? ? ? ? ? ? ? PO| | |? ? ? ? ? ? its1 cs1 its2 ? C1 C2| | | | | | | ]; subst; [discriminate|].
    simpl in W. apply andb_true_iff in W. destruct W as [W1 W2]. rewrite mvlet_bound in CX.
    destruct (mvlet_closed _ _ _ _ _ CL) as [CL1 CL2].
    destruct (here_app _ _ _ _ H) as [Ha Hb].
    destruct (IH1 T P sc false clean _ _ _ m PL C1) as [m1 A]; auto; try discriminate.
    { eapply ext_left; [exact EX|]. eapply comp_tmpls; eauto. }
    { eapply ctx_le; eauto. lia. }
    assert (CX1 := ctx_arr _ _ _ _ _ _ _ _ _ _ _ _ CX A).
    destruct CX1 as [[sl [E1 [E2 E3]]] R C].
    destruct (bind_all_ok xs vs t sc r sl s1 (m_data m1) (m_env m1) LV R E1 ltac:(lia) E3) as [d' [sl' [B [N1 [L1 [EO [R' K]]]]]]].
    assert (F : nth_error (instrs_of (m_code m1)) (m_pc m1) = Some (Ibind_values (List.length sc) (List.length xs) xs)).
    { rewrite (ar_code _ _ _ _ _ _ _ _ A), (ar_pc _ _ _ _ _ _ _ _ A). eapply here_plain; eauto. }
    set (m2 := goto (set_r0 (set_data m1 d') (RV VVoid)) (S (m_pc m1))).
    assert (Q : quiet 1 m1 m2).
    { eapply quiet_one; [exact F| | | | | | | | |]; try reflexivity. cbn [Vm.exec].
      rewrite (res_vals _ _ (ar_res _ _ _ _ _ _ _ _ A)). rewrite (proj2 (Nat.eqb_eq _ _) LV), B. reflexivity. }
    assert (A2 : arr (List.length sc) clean (its1 ++ [ins (Ibind_values (List.length sc) (List.length xs) xs)]) m [VVoid] (add_cells vs s1) m2).
    { eapply arr_then; [exact A|exact Q|reflexivity|exact R'|exact K]. }
    rewrite app_assoc. eapply done_after; [exact A2| |instantiate (1 := List.length (rev xs ++ sc)); rewrite app_length; lia].
    rewrite app_assoc in H. apply here_app in H. destruct H as [_ Hc].
    apply (IH2 T P (rev xs ++ sc) tl clean _ _ _ m2) with (2 := C2); auto.
    - eapply placed_code; [apply (ar_code _ _ _ _ _ _ _ _ A2)|auto].
    - rewrite (ar_pc _ _ _ _ _ _ _ _ A2). exact Hc.
    - constructor; auto. exists sl'. split; auto. split; auto. rewrite app_length, rev_length. lia.
  Qed.
  Lemma case_mvlet_bad t r s e xs body vs s1 :
    sim_eval prim t r s e (RVals vs) s1 -> List.length vs <> List.length xs ->
    sim_eval prim t r s (EMvLet e (Formals xs None) body) (RErr (ErrResults (List.length xs) (List.length vs))) s1.
  Proof.
    intros IH1 LV T P sc tl clean cs its cs' m PL CM EX H W TC CL CX.
    inversion CM as [| | | | |? ? ? ? ? ? ? ? ? ? ? ? ? PO| | |? ? ? ? ? ? its1 cs1 its2 ? C1 C2| | | | | | | ]; subst; [discriminate|].
    simpl in W. apply andb_true_iff in W. destruct W as [W1 W2]. rewrite mvlet_bound in CX.
    destruct (mvlet_closed _ _ _ _ _ CL) as [CL1 CL2].
    destruct (here_app _ _ _ _ H) as [Ha Hb].
    destruct (IH1 T P sc false clean _ _ _ m PL C1) as [m1 A]; auto; try discriminate.
    { eapply ext_left; [exact EX|]. eapply comp_tmpls; eauto. }
    { eapply ctx_le; eauto. lia. }
    exists m1, m1. split; [apply A|]. split; [|apply A].
    assert (F : nth_error (instrs_of (m_code m1)) (m_pc m1) = Some (Ibind_values (List.length sc) (List.length xs) xs)).
    { rewrite (ar_code _ _ _ _ _ _ _ _ A), (ar_pc _ _ _ _ _ _ _ _ A). eapply here_plain; eauto. }
    rewrite (step_exec _ _ _ F). cbn [Vm.exec].
    rewrite (res_vals _ _ (ar_res _ _ _ _ _ _ _ _ A)). rewrite (proj2 (Nat.eqb_neq _ _) LV). reflexivity.
  Qed.
  Lemma case_mvlet_err t r s e xs body y s1 :
    sim_eval prim t r s e (RErr y) s1 -> sim_eval prim t r s (EMvLet e (Formals xs None) body) (RErr y) s1.
  Proof.
    intros IH1 T P sc tl clean cs its cs' m PL CM EX H W TC CL CX.
    inversion CM as [| | | | |? ? ? ? ? ? ? ? ? ? ? ? ? PO| | |? ? ? ? ? ? its1 cs1 its2 ? C1 C2| | | | | | | ]; subst; [discriminate|].
    simpl in W. apply andb_true_iff in W. destruct W as [W1 W2]. rewrite mvlet_bound in CX.
    destruct (mvlet_closed _ _ _ _ _ CL) as [CL1 CL2].
    destruct (here_app _ _ _ _ H) as [Ha Hb].
    apply (IH1 T P sc false clean _ _ _ m PL C1); auto; try discriminate.
    { eapply ext_left; [exact EX|]. eapply comp_tmpls; eauto. }
    { eapply ctx_le; eauto. lia. }
  Qed.

  (** ** Values *)
  Lemma do_values_res vs m : frame_args m = Some vs -> m_ac m = List.length vs ->
    exists m1, exec Ido_values m = Next m1 /\ m_code m1 = m_code m /\ m_pc m1 = S (m_pc m) /\ m_sfp m1 = m_sfp m /\
      m_cc m1 = m_cc m /\ m_env m1 = m_env m /\ m_ac m1 = m_ac m /\ m_cp m1 = m_cp m /\ m_stk m1 = m_stk m /\
      m_data m1 = m_data m /\ res_ok vs m1.
  Proof.
    intros FA AC. cbn [Vm.exec]. rewrite FA. eexists. split; [reflexivity|]. simpl.
    repeat (split; [reflexivity|]). destruct vs as [|v [|w q]]; simpl; auto.
  Qed.

  Lemma values_at n m m1 vs s1 its post T P : placed (m_code m) T P -> here P (m_pc m) (its ++ ins Ido_values :: post) ->
    m_ac m = 0 -> pushed n its m vs s1 m1 ->
    exists m2, reaches m m2 /\ m_code m2 = m_code m /\ m_pc m2 = S (m_pc m + ninstr its) /\ m_sfp m2 = m_sfp m /\
      m_cc m2 = m_cc m /\ m_env m2 = m_env m /\ m_ac m2 = List.length vs /\ res_ok vs m2 /\ drel s1 (m_data m2) /\
      keeps n (m_sfp m + m_ac m) m m2.
  Proof.
    intros PL H AC [B1 B2 B3 B4 B5 B6 B7 B8 B9 B10 B11].
    assert (F : nth_error (instrs_of (m_code m1)) (m_pc m1) = Some Ido_values).
    { rewrite B2, B3. eapply here_plain; [exact PL|apply here_mid; exact H|reflexivity]. }
    destruct (do_values_res vs m1) as [m2 [X [Y1 [Y2 [Y3 [Y4 [Y5 [Y6 [Y7 [Y8 [Y9 Y10]]]]]]]]]]].
    { unfold frame_args. apply args_from_spec. rewrite B7, AC. split; [lia|]. intros j v N. rewrite <- (B9 _ _ N). f_equal. lia. }
    { lia. }
    exists m2. split; [eapply reaches_trans; [exact B1|eapply one; eauto]|]. split; [congruence|]. split; [lia|].
    split; [congruence|]. split; [congruence|]. split; [congruence|]. split; [lia|]. split; auto. split; [congruence|].
    destruct B11 as [K1 K2 K3 K4]. constructor; rewrite ?Y8, ?Y9; auto.
  Qed.

  Lemma case_mvvalues t r s es vs s1 : (es = [] -> vs = []) -> sim_args prim t r s es (inl vs) s1 ->
    sim_eval prim t r s (EMvValues es) (RVals vs) s1.
  Proof.
    intros E0 IH T P sc tl clean cs its cs' m PL CM EX H W TC CL CX. rewrite bound_vars_mvvalues in CX.
    simpl in W. apply andb_true_iff in W. destruct W as [-> W].
    assert (AC : m_ac m = 0) by (apply (cx_clean _ _ _ _ _ _ _ CX); auto).
    assert (CLs : forall b, In b es -> closed t sc b).
    { eapply closed_seq; eauto. }
    assert (CX' : ctx t false sc (List.length (bound_vars_seq es)) r s m) by (eapply ctx_le; eauto; discriminate).
    inversion CM as [| | | | |? ? ? ? ? ? ? ? ? ? ? ? ? PO| | | | |e0 es0 ? ? ? its1 ? C1| | | | |]; subst; [discriminate| |].
    - assert (H' := here_tail _ _ _ _ H).
      destruct (IH T P sc cs' [] cs' m PL (CANil _ _) EX) as [m1 B]; auto.
      { destruct H' as [pre [post [E N]]]. exists pre, (ins Ido_values :: post). auto. }
      destruct (values_at _ m m1 vs s1 [] [] T P PL H' AC B) as [m2 [Y1 [Y2 [Y3 [Y4 [Y5 [Y6 [Y7 [Y8 [Y9 Y10]]]]]]]]]].
      eapply done_ret; [exact PL|exact H|]. instantiate (1 := m2). constructor; auto.
      + simpl in *. lia.
      + rewrite Y7, AC, E0; auto.
      + discriminate.
    - assert (H' := here_tail _ _ _ _ H). cbn [app] in H'.
      assert (F : nth_error (instrs_of (m_code m)) (m_pc m) = Some (Icheck_stack (List.length (e0 :: es0)))) by (eapply here_plain; eauto).
      set (m0 := goto m (S (m_pc m))).
      assert (R0 : reaches m m0) by (eapply one; [exact F|reflexivity]).
      apply here_ins in H'. destruct (here_app _ _ _ _ H') as [Ha Hb].
      destruct (IH T P sc _ _ _ m0 PL C1 EX Ha W CLs) as [m1 B].
      { destruct CX' as [X1 X2 X3]. constructor; auto. }
      destruct (values_at _ m0 m1 vs s1 its1 [ins Iclear_frame] T P PL H' AC B) as [m2 [Y1 [Y2 [Y3 [Y4 [Y5 [Y6 [Y7 [Y8 [Y9 Y10]]]]]]]]]].
      assert (F2 : nth_error (instrs_of (m_code m2)) (m_pc m2) = Some Iclear_frame).
      { rewrite Y2, Y3. apply here_ins in Hb. eapply (here_plain (m_code m)); [exact PL|exact Hb|reflexivity]. }
      set (m3 := goto (set_cp m2 RNull 0) (S (m_pc m2))).
      assert (R3 : reaches m m3).
      { eapply reaches_trans; [exact R0|]. eapply reaches_trans; [exact Y1|]. eapply one; [exact F2|reflexivity]. }
      eapply done_ret; [exact PL|exact H|]. instantiate (1 := m3). constructor; auto.
      + simpl. rewrite Y3. rewrite !ninstr_app. simpl. lia.
      + discriminate.
      + destruct Y10 as [K1 K2 K3 K4]. constructor; auto.
  Qed.
  Lemma case_mvvalues_err t r s es y s1 : es <> [] -> sim_args prim t r s es (inr y) s1 ->
    sim_eval prim t r s (EMvValues es) (RErr y) s1.
  Proof.
    intros E0 IH T P sc tl clean cs its cs' m PL CM EX H W TC CL CX. rewrite bound_vars_mvvalues in CX.
    simpl in W. apply andb_true_iff in W. destruct W as [-> W].
    assert (CLs : forall b, In b es -> closed t sc b).
    { eapply closed_seq; eauto. }
    assert (CX' : ctx t false sc (List.length (bound_vars_seq es)) r s m) by (eapply ctx_le; eauto; discriminate).
    inversion CM as [| | | | |? ? ? ? ? ? ? ? ? ? ? ? ? PO| | | | |e0 es0 ? ? ? its1 ? C1| | | | |]; subst; [discriminate|contradiction|].
    assert (H' := here_tail _ _ _ _ H). cbn [app] in H'.
    assert (F : nth_error (instrs_of (m_code m)) (m_pc m) = Some (Icheck_stack (List.length (e0 :: es0)))) by (eapply here_plain; eauto).
    set (m0 := goto m (S (m_pc m))).
    assert (R0 : reaches m m0) by (eapply one; [exact F|reflexivity]).
    apply here_ins in H'. destruct (here_app _ _ _ _ H') as [Ha Hb].
    eapply fails_after; [exact R0|].
    apply (IH T P sc _ _ _ m0 PL C1 EX Ha W CLs).
    destruct CX' as [X1 X2 X3]. constructor; auto.
  Qed.

  (** ** Procedures *)
  Lemma grows_eq a b a' b' : grows a b -> d_cells a' = d_cells a -> d_glob a' = d_glob a -> d_envs a' = d_envs a ->
    d_cells b' = d_cells b -> d_glob b' = d_glob b -> d_envs b' = d_envs b -> grows a' b'.
  Proof. intros [G1 G2 G3] E1 E2 E3 E4 E5 E6. constructor; rewrite ?E1, ?E2, ?E3, ?E4, ?E5, ?E6; auto. Qed.

  Lemma lookup_cell_run top sc r sl s0 x m T P l c en fr ks :
    placed (m_code m) T P -> here P (m_pc m) (lookup_cell x sc) ->
    nth_error (d_envs (m_data m)) (m_env m) = Some sl -> env_ok top sc r sl (m_data m) -> closed top sc (EVar x) ->
    d_clos (m_data m) = (l, Clo c en fr) :: ks -> drel s0 (with_clos (m_data m) ks) ->
    exists m' cr, quiet 1 m m' /\ m_t0 m' = m_t0 m /\ m_r0 m' = RCell cr /\ cref_ok x r cr (m_data m') /\
      d_clos (m_data m') = (l, Clo c en fr) :: ks /\ drel s0 (with_clos (m_data m') ks) /\
      d_envs (m_data m') = d_envs (m_data m) /\ grows (m_data m) (m_data m').
  Proof.
    intros PL H N E C K D. unfold lookup_cell in H. destruct (scope_ref sc x) as [i|] eqn:S0.
    - assert (F : nth_error (instrs_of (m_code m)) (m_pc m) = Some (Ilookup_cell i)) by (eapply here_plain; eauto).
      destruct (slot_env _ _ _ _ _ _ _ _ N E S0) as [cr [ES CR]].
      exists (goto (set_r0 m (RCell cr)) (S (m_pc m))), cr. split.
      { eapply quiet_one; [exact F|cbn [Vm.exec]; rewrite ES; reflexivity|..]; reflexivity. }
      simpl. repeat (split; auto). 
    - assert (F : nth_error (instrs_of (m_code m)) (m_pc m) = Some (Itl_lookup_cell x)) by (eapply here_plain; eauto).
      destruct (touch_rel _ _ x D) as [D1 [G1 [V1 [X1 K1]]]].
      assert (TE : with_clos (touch x (m_data m)) ks = touch x (with_clos (m_data m) ks)).
      { unfold touch. simpl. destruct (glob_ref x (d_glob (m_data m))); reflexivity. }
      assert (TG : d_glob (touch x (m_data m)) = d_glob (touch x (with_clos (m_data m) ks))) by (rewrite <- TE; reflexivity).
      assert (TC : d_cells (touch x (m_data m)) = d_cells (touch x (with_clos (m_data m) ks))) by (rewrite <- TE; reflexivity).
      assert (TV : d_envs (touch x (m_data m)) = d_envs (touch x (with_clos (m_data m) ks))) by (rewrite <- TE; reflexivity).
      exists (goto (set_r0 (set_data m (touch x (m_data m))) (RCell (CG x))) (S (m_pc m))), (CG x). split.
      { eapply quiet_one; [exact F|cbn [Vm.exec]; reflexivity|..]; reflexivity. }
      cbn [m_t0 m_r0 m_data goto set_r0 set_data]. split; auto. split; auto. split.
      { unfold cref_ok. destruct (lookup_env x r) eqn:L.
        - exfalso. destruct (scope_some _ _ _ _ _ _ _ E C L) as [i S1]. congruence.
        - split; auto. rewrite TG. auto. }
      split. { unfold touch. destruct (glob_ref x (d_glob (m_data m))); auto. }
      split. { rewrite TE. auto. }
      split. { rewrite TV. rewrite V1. reflexivity. }
      destruct G1 as [G1 G2 G3]. constructor; rewrite ?TG, ?TC, ?TV; auto.
  Qed.

  Lemma fill_run top sc r sl s0 T P l c en ks fvs : forall idx fr m,
    placed (m_code m) T P -> here P (m_pc m) (fill_closure idx fvs sc) ->
    m_t0 m = RV (VPtr l) ->
    nth_error (d_envs (m_data m)) (m_env m) = Some sl -> env_ok top sc r sl (m_data m) ->
    (forall x, In x fvs -> closed top sc (EVar x)) ->
    d_clos (m_data m) = (l, Clo c en fr) :: ks -> drel s0 (with_clos (m_data m) ks) -> idx + List.length fvs <= List.length fr ->
    exists m' fr', quiet (ninstr (fill_closure idx fvs sc)) m m' /\ m_t0 m' = RV (VPtr l) /\
      d_clos (m_data m') = (l, Clo c en fr') :: ks /\ drel s0 (with_clos (m_data m') ks) /\
      d_envs (m_data m') = d_envs (m_data m) /\ grows (m_data m) (m_data m') /\ List.length fr' = List.length fr /\
      (forall k, k < idx -> nth_error fr' k = nth_error fr k) /\
      (forall k x, nth_error fvs k = Some x -> exists cr, nth_error fr' (idx + k) = Some (Some cr) /\ cref_ok x r cr (m_data m')).
  Proof.
    induction fvs as [|x fvs IH]; intros idx fr m PL H T0 N E C K D L.
    - exists m, fr. split; [apply quiet_refl|]. repeat (split; auto). intros [|k] y; discriminate.
    - cbn [fill_closure] in *. destruct (here_app _ _ _ _ H) as [Ha Hb].
      destruct (lookup_cell_run top sc r sl s0 x m T P l c en fr ks PL Ha N E) as [m1 [cr [Q1 [T1 [R1 [C1 [K1 [D1 [V1 G1]]]]]]]]]; auto.
      { apply C. simpl. auto. }
      assert (NI : ninstr (lookup_cell x sc) = 1) by (unfold lookup_cell; destruct (scope_ref sc x); reflexivity).
      assert (F : nth_error (instrs_of (m_code m1)) (m_pc m1) = Some (Iclosure_set Rt0 idx Rres)).
      { rewrite (q_code _ _ _ Q1), (q_pc _ _ _ Q1). rewrite NI in Hb. eapply here_plain; eauto. }
      simpl in L.
      set (d2 := with_clos (m_data m1) ((l, Clo c en (set_nth idx (Some cr) fr)) :: ks)).
      set (m2 := goto (set_data m1 d2) (S (m_pc m1))).
      assert (Q2 : quiet 1 m1 m2).
      { eapply quiet_one; [exact F| |..]; try reflexivity. cbn [Vm.exec load_reg]. rewrite T1, T0, R1, K1. cbn [clo_ref].
        rewrite Nat.eqb_refl. cbn [c_free c_code c_env]. assert (LT : idx <? List.length fr = true) by (apply Nat.ltb_lt; lia).
        rewrite LT. cbn [clo_upd]. rewrite Nat.eqb_refl. reflexivity. }
      assert (Q : quiet 2 m m2) by (apply (quiet_trans 1 1 _ m1); auto).
      destruct (IH (S idx) (set_nth idx (Some cr) fr) m2) as [m3 [fr' [Q3 [T3 [K3 [D3 [V3 [G3 [L3 [X3 Y3]]]]]]]]]].
      + eapply placed_code; [apply (q_code _ _ _ Q)|auto].
      + rewrite (q_pc _ _ _ Q). rewrite NI in Hb. apply here_ins in Hb. replace (m_pc m + 2) with (S (m_pc m + 1)) by lia. exact Hb.
      + simpl. congruence.
      + simpl. rewrite V1, (q_env _ _ _ Q1). auto.
      + apply (env_ok_keep top sc r sl sl (m_data m)); [exact E|eapply grows_eq; [exact G1|..]; reflexivity|auto].
      + intros y I. apply C. right. auto.
      + reflexivity.
      + exact D1.
      + rewrite set_nth_length. lia.
      + exists m3, fr'. split.
        { rewrite !ninstr_app, NI. simpl. apply (quiet_trans 2 _ _ m2); auto. }
        split; auto. split; auto. split; auto. split; [rewrite V3; exact V1|]. 
        assert (G3' : grows (m_data m1) (m_data m3)) by (eapply grows_eq; [exact G3|..]; reflexivity).
        split; [eapply grows_trans; [exact G1|exact G3']|].
        split; [rewrite L3; apply set_nth_length|]. split.
        { intros k Lk. rewrite X3 by lia. apply set_nth_ne. lia. }
        intros [|k] y Ny; simpl in Ny.
        * injection Ny as <-. exists cr. rewrite Nat.add_0_r. rewrite X3 by lia. split; [apply set_nth_eq; lia|].
          eapply cref_grows; [exact G3'|exact C1].
        * replace (idx + S k) with (S idx + k) by lia. auto.
  Qed.

  Lemma Forall2_of_nth {A B} (R : A -> B -> Prop) : forall l l', List.length l = List.length l' ->
    (forall k a, nth_error l k = Some a -> exists b, nth_error l' k = Some b /\ R a b) -> Forall2 R l l'.
  Proof.
    induction l as [|a l IH]; intros [|b l'] L H; try discriminate; constructor.
    - destruct (H 0 a eq_refl) as [b' [E X]]. simpl in E. congruence.
    - apply IH; [simpl in L; lia|]. intros k a' N. apply (H (S k) a' N).
  Qed.

  Lemma proc_wf inp clean e cls bounds : wf inp clean e = true -> proc_of e = Some (cls, bounds) -> wf_clauses cls = true.
  Proof.
    destruct e; try discriminate; simpl; intros W [= <- <-]; auto. unfold wf_clauses. simpl. rewrite W. reflexivity.
  Qed.

  Lemma case_proc t r s e cls bounds v s1 : proc_of e = Some (cls, bounds) -> new_proc (PClo cls r) s = (v, s1) ->
    sim_eval prim t r s e (RVals [v]) s1.
  Proof.
    intros PO NP T P sc tl clean cs its cs' m PL CM EX H W TC CL CX.
    assert (CM' : exists cls' bounds' its0 l ar s2 its' reloc c, proc_of e = Some (cls', bounds') /\
       cclauses cls' bounds' (free_vars e) None ANull (CSt 0 (tmpls cs)) its0 (Some l) ar s2 /\
       resolve_refs (tmpls s2) (its0 ++ [Lab l; ins Ido_arity_error]) = Some (its', reloc) /\
       write_code its' reloc ar = Some c /\
       its = with_tail_ret ([ins (Imake_closure (List.length (tmpls s2)) (List.length (free_vars e)))] ++ closure_body (free_vars e) sc) tl /\
       cs' = CSt (labels cs) (c :: tmpls s2)).
    { inversion CM; subst; try discriminate PO. repeat eexists; eauto. }
    destruct CM' as [cls' [bounds' [its0 [l0 [ar [s2 [its' [reloc [c [PO' [CC [RR [WC [-> ->]]]]]]]]]]]]]].
    assert (cls' = cls /\ bounds' = bounds) as [-> ->] by (split; congruence).
    injection NP as <- <-.
    assert (H' := here_tail _ _ _ _ H). cbn [app] in H'.
    assert (TT : template T (List.length (tmpls s2)) = Some c).
    { destruct EX as [ext ->]. apply template_ext. simpl. apply template_new. }
    destruct (here_fetch _ _ _ _ _ _ PL H') as [i [F RT]]. cbn [retarget] in RT. rewrite TT in RT. simpl in RT. injection RT as <-.
    set (l := List.length (d_heap (m_data m))).
    set (fr := repeat (@None cref) (List.length (free_vars e))).
    set (d1 := Data (d_heap (m_data m) ++ [COther 0]) ((l, Clo c (m_env m) fr) :: d_clos (m_data m)) (d_cells (m_data m)) (d_glob (m_data m)) (d_envs (m_data m))).
    set (m1 := goto (set_r0 (set_data m d1) (RV (VPtr l))) (S (m_pc m))).
    assert (Q1 : quiet 1 m m1) by (eapply quiet_one; [exact F|reflexivity|..]; reflexivity).
    assert (R := cx_rel _ _ _ _ _ _ _ CX).
    set (s0 := Store (heap_of s ++ [COther 0]) (procs_of s) (cells_of s) (glob_of s)).
    assert (D1 : drel s0 (with_clos d1 (d_clos (m_data m)))).
    { apply (drel_of s (m_data m)); auto; simpl; try apply R; [rewrite (dr_heap _ _ R); reflexivity|]. constructor; auto. }
    destruct (cx_env _ _ _ _ _ _ _ CX) as [sl [N [LS EO]]].
    assert (G1 : grows (m_data m) d1) by (constructor; auto).
    assert (EO1 : env_ok t sc r sl d1) by (eapply env_ok_keep; eauto).
    assert (WC' := proc_wf _ _ _ _ _ W PO).
    (* the final relation *)
    assert (FIN : forall m' fr', d_clos (m_data m') = (l, Clo c (m_env m) fr') :: d_clos (m_data m) ->
                    drel s0 (with_clos (m_data m') (d_clos (m_data m))) ->
                    Forall2 (fun x o => exists cr, o = Some cr /\ cref_ok x r cr (m_data m')) (free_vars e) fr' ->
                    drel (Store (heap_of s ++ [COther 0]) ((List.length (heap_of s), PClo cls r) :: procs_of s) (cells_of s) (glob_of s)) (m_data m')).
    { intros m' fr' K [Z1 Z2 Z3 Z4] FF. constructor; auto. rewrite K. constructor; auto. simpl. split.
      - unfold l. rewrite (dr_heap _ _ R). reflexivity.
      - exists e. split; [|split]; auto. exists bounds, (CSt 0 (tmpls cs)), its0, l0, ar, s2, its', reloc. auto. }
    rewrite (dr_heap _ _ R) in *. fold l.
    match goal with |- done _ ?n _ (with_tail_ret ?its _) _ _ ?s2 =>
      cut (exists m', arr n clean its m [VPtr l] s2 m'); [intros [m' A]; eapply done_ret; eauto|] end.
    destruct (free_vars e) as [|x0 xr] eqn:FV.
    - exists m1. apply arr_quiet; auto.
      + reflexivity.
      + apply (FIN m1 []); auto.
      + apply dkeeps_same; auto.
    - cbn [closure_body app] in *. rewrite <- FV in *. apply here_ins in H'.
      assert (F1 : nth_error (instrs_of (m_code m1)) (m_pc m1) = Some (Imov Rt0 Rres)) by (eapply (here_plain (m_code m)); eauto).
      apply here_ins in H'. destruct (here_app _ _ _ _ H') as [Ha Hb].
      set (m2 := M (m_code m) (S (S (m_pc m))) (RV (VPtr l)) (RV (VPtr l)) (m_cp m) (m_ac m) (m_sfp m) (m_stk m) (m_cc m) (m_env m) (m_vc m) (m_vals m) d1).
      assert (Q2 : quiet 1 m1 m2) by (eapply quiet_one; [exact F1|reflexivity|..]; reflexivity).
      destruct (fill_run t sc r sl s0 T P l c (m_env m) (d_clos (m_data m)) (free_vars e) 0 fr m2) as [m3 [fr' [Q3 [T3 [K3 [D3 [V3 [G3 [L3 [X3 Y3]]]]]]]]]]; auto.
      { intros x I. eapply closed_sub; [exact CL|]. intros y [->|[]]. auto. }
      { unfold fr. rewrite repeat_length, FV. simpl. auto. }
      assert (F3 : nth_error (instrs_of (m_code m3)) (m_pc m3) = Some (Imov Rres Rt0)).
      { rewrite (q_code _ _ _ Q3), (q_pc _ _ _ Q3). eapply (here_plain (m_code m)); eauto. }
      set (m4 := goto (set_r0 m3 (RV (VPtr l))) (S (m_pc m3))).
      assert (Q4 : quiet 1 m3 m4).
      { eapply quiet_one; [exact F3|cbn [Vm.exec load_reg]; rewrite T3; reflexivity|..]; reflexivity. }
      exists m4. apply arr_quiet.
      + assert (Q := quiet_trans _ _ _ _ _ Q1 (quiet_trans _ _ _ _ _ Q2 (quiet_trans _ _ _ _ _ Q3 Q4))).
        cbn [ninstr]. rewrite ninstr_app. exact Q.
      + reflexivity.
      + apply (FIN m4 fr'); auto. apply Forall2_of_nth.
        * rewrite L3. unfold fr. rewrite repeat_length, FV. reflexivity.
        * intros k x Nx. destruct (Y3 k x Nx) as [cr [Nr Cr]]. exists (Some cr). split; auto. exists cr. auto.
      + apply dkeeps_same; [exact V3|]. eapply grows_trans; [exact G1|exact G3].
  Qed.

  (** ** Entering a closure *)
  Lemma clauses_lab k l cls : forall bounds fvs ar s its ar' s' x,
    cclauses cls bounds fvs (Some k) ar s its (Some l) ar' s' -> exists rest, its ++ Lab l :: x = Lab k :: rest.
  Proof.
    intros bounds fvs ar s its ar' s' x H. inversion H; subst.
    - exists x. reflexivity.
    - cbn [clause_start app]. eexists. reflexivity.
  Qed.

  Definition counted (m : mst) (pc : nat) : mst := goto (set_r0 m (RNum (m_ac m))) pc.

  Lemma dispatch T P fvs l post cls : forall bounds label ar s its ar' s' m,
    cclauses cls bounds fvs label ar s its (Some l) ar' s' -> placed (m_code m) T P ->
    here P (m_pc m) (its ++ Lab l :: ins Ido_arity_error :: post) ->
    (label = None \/ m_r0 m = RNum (m_ac m)) -> size_ok cls bounds ->
    match select cls (m_ac m) with
    | Some (fm, body) => exists pc binds sc1 its1 cs1 cs2 (b : list ident),
        reaches m (counted m pc) /\
        here P pc ([ins (Ipush_env (List.length fvs + List.length b)); ins Iclosure_bind] ++ binds ++ [ins Iclear_frame] ++ its1) /\
        bind_formals fm (fvs_scope fvs) = (binds, sc1) /\ cseq body sc1 true cs1 its1 cs2 /\
        (exists ext, tmpls s' = ext ++ tmpls cs2) /\
        List.length (formals_ids fm) + List.length (bound_vars_seq body) <= List.length b
    | None => exists pc, reaches m (counted m pc) /\ nth_error (instrs_of (m_code m)) pc = Some Ido_arity_error
    end.
  Proof.
    induction cls as [|[fm body] cls IH]; intros bounds label ar s its ar' s' m CC PL H LB SZ.
    - inversion CC; subst. destruct LB as [|R0]; [discriminate|]. simpl. exists (m_pc m). split.
      + unfold counted. rewrite <- R0. destruct m; constructor.
      + simpl in H. apply here_lab in H. eapply here_plain; eauto.
    - inversion CC as [|? ? ? ? ? ? ? ? ar1 binds sc1 its1 s1 its2 ? ? ? UA BF CS C2]; subst.
      inversion SZ as [|? b ? bs SZ1 SZ2]; subst. cbn [hd tl] in *. cbn [fst snd] in SZ1.
      set (body_its := [ins (Ipush_env (List.length fvs + List.length b)); ins Iclosure_bind] ++ binds ++ [ins Iclear_frame] ++ its1) in *.
      assert (HH : here P (m_pc m) ([clause_start label] ++ [clause_branch fm (labels s)] ++ body_its ++ its2 ++ Lab l :: ins Ido_arity_error :: post)).
      { unfold body_its. repeat (rewrite <- ?app_assoc in H |- *; cbn [app] in H |- *). rewrite <- ?app_assoc in H. exact H. }
      clear H. destruct (here_app _ _ _ _ HH) as [Ha Hb].
      (* the count *)
      set (pc1 := m_pc m + ninstr [clause_start label]) in *.
      assert (R1 : reaches m (counted m pc1)).
      { destruct label as [l0|]; cbn [clause_start] in *.
        - destruct LB as [|R0]; [discriminate|]. unfold pc1, counted. rewrite <- R0. simpl. rewrite Nat.add_0_r. destruct m; constructor.
        - eapply one; [eapply here_plain; [exact PL|exact Ha|reflexivity]|]. cbn [Vm.exec load_reg store_reg or_undef]. unfold next, counted, pc1. simpl.
          repeat f_equal. lia. }
      destruct (here_app _ _ _ _ Hb) as [Hc Hd]. replace (pc1 + ninstr [clause_branch fm (labels s)]) with (S pc1) in Hd by (simpl; lia).
      destruct (here_fetch _ _ _ _ _ _ PL Hc) as [i [F RT]].
      destruct (here_app _ _ _ _ Hd) as [He Hf].
      destruct (clauses_lab _ _ _ _ _ _ _ _ _ _ (ins Ido_arity_error :: post) C2) as [rs ER].
      assert (LP : labpos 0 P (labels s) = Some (S pc1 + ninstr body_its)) by (eapply here_labpos; [exact PL|rewrite <- ER; exact Hf]).
      assert (ST : step (counted m pc1) = Next (counted m (if accepts fm (m_ac m) then S pc1 else S pc1 + ninstr body_its))).
      { rewrite (step_exec _ (counted m pc1) _ F). unfold accepts. unfold has_rest, formals_len in RT.
        destruct (rest fm) as [x|] eqn:ERs; cbn [retarget] in RT; rewrite LP in RT; simpl in RT; injection RT as <-;
          cbn [Vm.exec counted goto set_r0 m_r0 m_ac].
        - rewrite Nat.leb_antisym. destruct (m_ac m <? List.length (req fm)); reflexivity.
        - destruct (m_ac m =? List.length (req fm)); reflexivity. }
      cbn [select fst]. destruct (accepts fm (m_ac m)).
      + exists (S pc1), binds, sc1, its1, (CSt (S (labels s)) (tmpls s)), s1, b. split.
        { eapply reaches_trans; [exact R1|]. apply reaches_one. exact ST. }
        split; auto. split; auto. split; auto. split; auto. eapply cclauses_tmpls; eauto.
      + set (m2 := counted m (S pc1 + ninstr body_its)).
        assert (R2 : reaches m m2) by (eapply reaches_trans; [exact R1|apply reaches_one; exact ST]).
        assert (X := IH _ _ _ _ _ _ _ m2 C2 PL Hf (or_intror eq_refl) SZ2). cbn [m2 counted goto set_r0 m_ac] in X.
        destruct (select cls (m_ac m)) as [[fm' body']|].
        * destruct X as [pc [bi [sc2 [it [cs1 [cs2 [b' [X1 X]]]]]]]]. exists pc, bi, sc2, it, cs1, cs2, b'. split; auto.
          eapply reaches_trans; [exact R2|]. exact X1.
        * destruct X as [pc [X1 X2]]. exists pc. split; auto. eapply reaches_trans; [exact R2|]. exact X1.
  Qed.

  Lemma bind_run sc x m T P r sl s v i0 (F0 : nth_error (instrs_of (m_code m)) (m_pc m) = Some i0) m0 :
    placed (m_code m) T P -> exec i0 m = Next m0 -> quiet 1 m m0 -> m_r0 m0 = RV v ->
    here P (S (m_pc m)) [ins (Ibind (List.length sc) x)] ->
    nth_error (d_envs (m_data m0)) (m_env m0) = Some sl -> List.length sc < List.length sl -> env_ok false sc r sl (m_data m0) ->
    drel s (m_data m0) ->
    exists m' sl', quiet 2 m m' /\ nth_error (d_envs (m_data m')) (m_env m') = Some sl' /\ List.length sl' = List.length sl /\
      env_ok false (x :: sc) ((x, List.length (cells_of s)) :: r) sl' (m_data m') /\ drel (add_cells [v] s) (m_data m') /\
      dkeeps (List.length sc) (m_env m) (m_data m0) (m_data m') /\ d_clos (m_data m') = d_clos (m_data m0).
  Proof.
    intros PL X Q R0 H N L EO R.
    destruct (bind1_ok false sc r sl s (m_data m0) (m_env m0) x v R N L EO) as [d' [sl' [B [N' [L' [EO' [R' [K [_ [C _]]]]]]]]]].
    assert (F : nth_error (instrs_of (m_code m0)) (m_pc m0) = Some (Ibind (List.length sc) x)).
    { rewrite (q_code _ _ _ Q), (q_pc _ _ _ Q), Nat.add_1_r. eapply here_plain; eauto. }
    set (m' := goto (set_r0 (set_data m0 d') (RV VVoid)) (S (m_pc m0))).
    assert (Q' : quiet 1 m0 m').
    { eapply quiet_one; [exact F|cbn [Vm.exec]; rewrite R0, B; reflexivity|..]; reflexivity. }
    exists m', sl'. split; [apply (quiet_trans 1 1 _ m0); auto|]. split; auto. split; auto. split; auto. split; auto.
    split; auto. rewrite <- (q_env _ _ _ Q). exact K.
  Qed.

  Lemma bind_args_run T P xs : forall k sc its sc' ws m r sl s,
    bind_args k xs sc = (its, sc') -> placed (m_code m) T P -> here P (m_pc m) its -> List.length ws = List.length xs ->
    (forall j v, nth_error ws j = Some v -> m_stk m (S (m_sfp m) + (k + j)) = SVal v) ->
    nth_error (d_envs (m_data m)) (m_env m) = Some sl -> List.length sc + List.length xs <= List.length sl ->
    env_ok false sc r sl (m_data m) -> drel s (m_data m) ->
    exists m' sl', quiet (ninstr its) m m' /\ nth_error (d_envs (m_data m')) (m_env m') = Some sl' /\ List.length sl' = List.length sl /\
      env_ok false (rev xs ++ sc) (bind_env xs (List.length (cells_of s)) r) sl' (m_data m') /\ drel (add_cells ws s) (m_data m') /\
      dkeeps (List.length sc) (m_env m) (m_data m) (m_data m') /\ d_clos (m_data m') = d_clos (m_data m).
  Proof.
    induction xs as [|x xs IH]; intros k sc its sc' [|v ws] m r sl s B PL H LW ST N L EO R; try discriminate.
    - injection B as <- <-. exists m, sl. split; [apply quiet_refl|]. split; auto. split; auto. split; auto. split.
      + unfold add_cells. rewrite app_nil_r. destruct s; exact R.
      + split; auto. apply dkeeps_same; auto. apply grows_refl.
    - cbn [bind_args] in B. destruct (bind_args (S k) xs (x :: sc)) as [its1 sc1] eqn:B1. injection B as <- <-.
      cbn [app] in H. simpl in L, LW. injection LW as LW.
      assert (F : nth_error (instrs_of (m_code m)) (m_pc m) = Some (Iget_arg Rres k)) by (eapply here_plain; eauto).
      assert (S0 : m_stk m (S (m_sfp m) + k) = SVal v) by (rewrite <- (ST 0 v eq_refl); f_equal; lia).
      set (m0 := goto (set_r0 m (RV v)) (S (m_pc m))).
      assert (X : exec (Iget_arg Rres k) m = Next m0) by (cbn [Vm.exec]; rewrite S0; reflexivity).
      assert (Q : quiet 1 m m0) by (eapply quiet_one; [exact F|exact X|..]; reflexivity).
      assert (Hb := here_ins _ _ _ _ H). assert (Hc := here_ins _ _ _ _ Hb).
      destruct (bind_run sc x m T P r sl s v _ F m0 PL X Q eq_refl) as [m1 [sl1 [Q1 [N1 [L1 [EO1 [R1 [K1 C1]]]]]]]]; auto.
      { apply (here_app P _ [ins (Ibind (List.length sc) x)]) in Hb. apply Hb. }
      { lia. }
      destruct (IH (S k) (x :: sc) its1 sc1 ws m1 ((x, List.length (cells_of s)) :: r) sl1 (add_cells [v] s) B1) as [m2 [sl2 [Q2 [N2 [L2 [EO2 [R2 [K2 C2]]]]]]]]; eauto.
      + eapply placed_code; [apply (q_code _ _ _ Q1)|auto].
      + rewrite (q_pc _ _ _ Q1). replace (m_pc m + 2) with (S (S (m_pc m))) by lia. exact Hc.
      + intros j w Nj. rewrite (q_stk _ _ _ Q1), (q_sfp _ _ _ Q1). rewrite <- (ST (S j) w Nj). f_equal. lia.
      + simpl. lia.
      + exists m2, sl2. split; [apply (quiet_trans 2 _ _ m1); auto|]. split; auto. split; [congruence|]. split; [|split; [|split]].
        * simpl. rewrite <- app_assoc. simpl in EO2. rewrite app_length in EO2. simpl in EO2. rewrite Nat.add_1_r in EO2. exact EO2.
        * rewrite add_cells_app in R2. exact R2.
        * rewrite (q_env _ _ _ Q1) in K2. eapply dkeeps_trans; [|exact K2|simpl; lia]. exact K1.
        * rewrite C2, C1. reflexivity.
  Qed.

  Lemma args_split vs stk i n : args_from stk i n = Some vs -> forall k, k <= n ->
    args_from stk (i + k) (n - k) = Some (skipn k vs).
  Proof.
    intros A k L. apply args_from_spec in A. destruct A as [LV A]. apply args_from_spec. split; [rewrite skipn_length; lia|].
    intros j v N. rewrite <- Nat.add_assoc. apply A. rewrite <- N. clear. revert vs. induction k as [|k IH]; intros vs; simpl; auto.
    destruct vs; auto. destruct j; reflexivity.
  Qed.

  (** All the formals. *)
  Lemma bind_formals_run T P fm sc its sc' vs m r sl s r1 s1 :
    bind_formals fm sc = (its, sc') -> placed (m_code m) T P -> here P (m_pc m) its ->
    frame_args m = Some vs -> accepts fm (List.length vs) = true -> bind_clause fm vs r s = (r1, s1) ->
    nth_error (d_envs (m_data m)) (m_env m) = Some sl -> List.length sc + List.length (formals_ids fm) <= List.length sl ->
    env_ok false sc r sl (m_data m) -> drel s (m_data m) ->
    exists m' sl', quiet (ninstr its) m m' /\ nth_error (d_envs (m_data m')) (m_env m') = Some sl' /\ List.length sl' = List.length sl /\
      env_ok false sc' r1 sl' (m_data m') /\ drel s1 (m_data m') /\
      dkeeps (List.length sc) (m_env m) (m_data m) (m_data m') /\ d_clos (m_data m') = d_clos (m_data m).
  Proof.
    intros BF PL H FA AC BC N L EO R. assert (FA' := FA). unfold frame_args in FA. assert (AF := FA).
    apply args_from_spec in FA. destruct FA as [LV FA].
    unfold bind_formals in BF. destruct (bind_args 0 (req fm) sc) as [its0 sc0] eqn:B.
    assert (SC := bind_args_scope _ _ _ _ _ B).
    unfold bind_clause in BC. unfold accepts in AC. unfold formals_ids in L. rewrite app_length in L.
    destruct (rest fm) as [x|] eqn:RS.
    - apply Nat.leb_le in AC. injection BF as <- <-. destruct (here_app _ _ _ _ H) as [Ha Hb].
      assert (LF : List.length (firstn (List.length (req fm)) vs) = List.length (req fm)) by (rewrite firstn_length; lia).
      simpl in L.
      destruct (bind_args_run T P (req fm) 0 sc its0 sc0 (firstn (List.length (req fm)) vs) m r sl s B PL Ha LF) as [m1 [sl1 [Q1 [N1 [L1 [EO1 [R1 [K1 C1]]]]]]]]; auto; try lia.
      { intros j v Nj. apply FA. rewrite <- (firstn_skipn (List.length (req fm)) vs). rewrite nth_error_app1; auto.
        eapply nth_some_lt; eauto. }
      set (k := List.length (req fm)) in *.
      destruct (new_list (skipn k vs) (heap_of s)) as [lv h] eqn:NL. injection BC as <- <-.
      assert (F : nth_error (instrs_of (m_code m1)) (m_pc m1) = Some (Ido_rest k)).
      { rewrite (q_code _ _ _ Q1), (q_pc _ _ _ Q1). eapply here_plain; eauto. }
      set (m2 := goto (set_r0 (set_data m1 (with_heap (m_data m1) h)) (RV lv)) (S (m_pc m1))).
      assert (HP : heap_of s = d_heap (m_data m1)) by (rewrite <- (dr_heap _ _ R1); reflexivity).
      assert (X : exec (Ido_rest k) m1 = Next m2).
      { cbn [Vm.exec]. rewrite (q_ac _ _ _ Q1), (q_sfp _ _ _ Q1), (q_stk _ _ _ Q1).
        destruct (Nat.ltb_spec (m_ac m) k); [lia|]. rewrite (args_split vs _ _ _ AF k) by lia.
        rewrite <- HP, NL. reflexivity. }
      assert (Q2 : quiet 1 m1 m2) by (eapply quiet_one; [exact F|exact X|..]; reflexivity).
      rewrite <- (q_pc _ _ _ Q1) in Hb. apply here_ins in Hb.
      assert (G2 : grows (m_data m1) (m_data m2)) by (constructor; auto).
      destruct (bind_run sc0 x m1 T P (bind_env (req fm) (List.length (cells_of s)) r) sl1
                  (set_heap h (add_cells (firstn k vs) s)) lv _ F m2) as [m3 [sl3 [Q3 [N3 [L3 [EO3 [R3 [K3 C3]]]]]]]]; auto.
      + eapply placed_code; [apply (q_code _ _ _ Q1)|auto].
      + rewrite L1, SC, app_length, rev_length. fold k. lia.
      + rewrite SC. eapply env_ok_keep; [exact EO1|exact G2|auto].
      + eapply drel_of; [reflexivity|..]; try exact R1; try reflexivity; try apply R1; auto.
      + exists m3, sl3. split; [rewrite ninstr_app; apply (quiet_trans _ 2 _ m1); auto|]. split; auto. split; [congruence|]. split; [|split; [|split]].
        * simpl in EO3. rewrite app_length in EO3. rewrite LF in EO3. exact EO3.
        * unfold add_cells, set_heap in R3. simpl in R3. rewrite <- app_assoc in R3. exact R3.
        * rewrite (q_env _ _ _ Q1) in K3. eapply dkeeps_trans; [exact K1| |apply le_n]. 
          apply (dkeeps_trans (List.length sc) (List.length sc) _ _ (m_data m2)); [apply dkeeps_same; [reflexivity|exact G2]| |apply le_n].
          destruct K3 as [Z1 Z2 Z3]. constructor; auto. intros sl0 N0. destruct (Z2 sl0 N0) as [sl' [Y1 [Y2 Y3]]]. exists sl'.
          split; auto. split; auto. intros i Li. apply Y3. rewrite SC, app_length, rev_length. lia.
        * rewrite C3. exact C1.
    - apply Nat.eqb_eq in AC. injection BF as <- <-. injection BC as <- <-.
      destruct (bind_args_run T P (req fm) 0 sc its0 sc0 vs m r sl s B PL H AC) as [m1 [sl1 [Q1 [N1 [L1 [EO1 [R1 [K1 C1]]]]]]]]; auto; try lia.
      exists m1, sl1. subst sc0. auto 10.
  Qed.

  Lemma select_In cls n c : select cls n = Some c -> In c cls /\ accepts (fst c) n = true.
  Proof.
    induction cls as [|a cls IH]; simpl; [discriminate|]. destruct (accepts (fst a) n) eqn:A.
    - intros [= ->]. auto.
    - intros E. apply IH in E. destruct E. auto.
  Qed.

  (** The state at the entry of the code of a procedure. *)
  Definition entered (m : mst) (k : mclo) : mst :=
    M (c_code k) 0 (m_r0 m) (m_t0 m) (m_cp m) (m_ac m) (m_sfp m) (m_stk m) (m_cc m) (c_env k) (m_vc m) (m_vals m) (m_data m).
  Lemma enter_ok m f k : m_cp m = RV f -> clo_at (RV f) (m_data m) = Some k -> do_application m = Next (entered m k).
  Proof. intros E C. unfold do_application. rewrite E, C. rewrite <- E. reflexivity. Qed.

  Lemma here_start P : here P 0 P.
  Proof. exists [], []. rewrite app_nil_r. auto. Qed.

  Lemma case_ap_clo s f vs cls r fm body r1 s1 x s2 :
    proc_at f (procs_of s) = Some (PClo cls r) -> select cls (List.length vs) = Some (fm, body) ->
    bind_clause fm vs r s = (r1, s1) -> sim_seq prim false r1 s1 body x s2 -> sim_apply prim s f vs x s2.
  Proof.
    intros PA SEL BC IH m CP FA R.
    assert (PR := proc_rel_at s (m_data m) f R). rewrite PA in PR. destruct PR as [k [CA [e [CO [WF FR]]]]].
    assert (EN := enter_ok m f k CP CA). set (m1 := entered m k) in *.
    destruct CO as [bounds [s0 [its [l [ar [s3 [its' [reloc [PO [CC [RR WC]]]]]]]]]]].
    assert (NE := proc_cls _ _ _ _ _ _ _ _ _ PO CC).
    destruct (clauses_assembled _ _ _ _ _ _ _ _ NE CC) as [AS _].
    set (P := its ++ [Lab l; ins Ido_arity_error]) in *. set (T := tmpls s3) in *.
    assert (PL : placed (m_code m1) T P) by (eapply placed_of; eauto).
    assert (SZ := proc_size _ _ _ PO).
    assert (LV : m_ac m = List.length vs) by (unfold frame_args in FA; apply args_from_spec in FA; symmetry; apply FA).
    assert (DP := dispatch T P (free_vars e) l [] cls bounds None ANull s0 its ar s3 m1 CC PL (here_start P) (or_introl eq_refl) SZ).
    cbn [m1 entered m_ac] in DP. rewrite LV, SEL in DP.
    destruct DP as [pc [binds [sc1 [its1 [cs1 [cs2 [b [R1 [H [BF [CS [EX SZ1]]]]]]]]]]]].
    destruct (select_In _ _ _ SEL) as [INC ACC]. cbn [fst] in ACC.
    set (m2 := counted m1 pc) in *.
    (* push the environment *)
    cbn [app] in H.
    assert (F2 : nth_error (instrs_of (m_code m2)) (m_pc m2) = Some (Ipush_env (List.length (free_vars e) + List.length b))) by (eapply (here_plain (m_code m1)); eauto).
    set (en := List.length (d_envs (m_data m))).
    set (sl0 := repeat (@None cref) (List.length (free_vars e) + List.length b)).
    set (d3 := with_envs (m_data m) (d_envs (m_data m) ++ [sl0])).
    set (m3 := M (m_code m1) (S pc) (m_r0 m2) (m_t0 m) (m_cp m) (m_ac m) (m_sfp m) (m_stk m) (m_cc m) en (m_vc m) (m_vals m) d3).
    assert (R3 : reaches m1 m3) by (eapply reaches_trans; [exact R1|eapply one; [exact F2|reflexivity]]).
    (* bind the free variables *)
    apply here_ins in H.
    assert (F3 : nth_error (instrs_of (m_code m3)) (m_pc m3) = Some Iclosure_bind) by (eapply (here_plain (m_code m1)); eauto).
    assert (N3 : nth_error (d_envs d3) en = Some sl0) by (simpl; apply nth_snoc_eq).
    assert (LFR := Forall2_lgth _ _ _ FR).
    destruct (load_free_ok (c_free k) d3 en 0 sl0 N3) as [d4 [sl4 [LF [D4 [L4 [_ X4]]]]]].
    { unfold sl0. rewrite repeat_length. simpl. lia. }
    set (m4 := goto (set_data m3 d4) (S (S pc))).
    assert (R4 : reaches m1 m4).
    { eapply reaches_trans; [exact R3|]. eapply one; [exact F3|]. cbn [Vm.exec m3 m_cp m_data m_env].
      change (clo_at (m_cp m) d3) with (clo_at (m_cp m) (m_data m)). rewrite CP, CA, LF. reflexivity. }
    assert (G4 : grows (m_data m) d4).
    { subst d4. constructor; simpl; auto. rewrite set_nth_length, app_length. lia. }
    assert (RD4 : drel s d4).
    { eapply (drel_of s (m_data m)); try exact G4; try exact R; subst d4; simpl; auto; apply R. }
    assert (N4 : nth_error (d_envs d4) en = Some sl4).
    { subst d4. simpl. apply set_nth_eq. rewrite app_length. simpl. unfold en. lia. }
    assert (FR4 : Forall2 (fun x o => exists cr, o = Some cr /\ cref_ok x r cr d4) (free_vars e) (c_free k)).
    { eapply Forall2_imp; [|exact FR]. intros a o [cr [-> C]]. exists cr. split; auto. eapply cref_grows; eauto. }
    assert (EO4 : env_ok false (fvs_scope (free_vars e)) r sl4 d4) by (eapply load_env_ok; [exact FR4|exact X4]).
    (* bind the arguments *)
    apply here_ins in H. destruct (here_app _ _ _ _ H) as [Ha Hb].
    assert (LS4 : List.length sl4 = List.length (free_vars e) + List.length b) by (rewrite L4; apply repeat_length).
    assert (LSC : List.length (fvs_scope (free_vars e)) = List.length (free_vars e)) by (unfold fvs_scope; apply rev_length).
    destruct (bind_formals_run T P fm (fvs_scope (free_vars e)) binds sc1 vs m4 r sl4 s r1 s1 BF PL Ha FA ACC BC N4) as [m5 [sl5 [Q5 [N5 [L5 [EO5 [R5 [K5 C5]]]]]]]]; auto.
    { lia. }
    (* clear the frame *)
    assert (F5 : nth_error (instrs_of (m_code m5)) (m_pc m5) = Some Iclear_frame).
    { rewrite (q_code _ _ _ Q5), (q_pc _ _ _ Q5). eapply (here_plain (m_code m1)); eauto. }
    apply here_ins in Hb.
    set (m6 := goto (set_cp m5 RNull 0) (S (m_pc m5))).
    assert (R6 : reaches m1 m6).
    { eapply reaches_trans; [exact R4|]. eapply reaches_trans; [apply Q5|]. eapply one; [exact F5|reflexivity]. }
    assert (LSC1 : List.length sc1 = List.length (free_vars e) + List.length (formals_ids fm)).
    { rewrite (bind_formals_scope _ _ _ _ BF). rewrite !app_length, rev_length. unfold fvs_scope, formals_ids. rewrite rev_length, app_length.
      destruct (rest fm); simpl; lia. }
    assert (IB : done true (List.length sc1) true its1 m6 x s2).
    { apply (IH T P sc1 true true cs1 its1 cs2 m6); auto.
      - eapply placed_code; [|exact PL]. simpl. apply (q_code _ _ _ Q5).
      - simpl. rewrite (q_pc _ _ _ Q5). exact Hb.
      - simpl. unfold wf_clauses in WF. rewrite forallb_forall in WF. apply (WF _ INC).
      - intros b' Ib _ y Iy. destruct (body_closed e cls bounds fm body b' y PO INC Ib Iy) as [PX|FX].
        + rewrite (bind_formals_scope _ _ _ _ BF). apply formals_ids_param in PX. unfold formals_ids in PX. rewrite in_app_iff in *.
          rewrite in_app_iff. rewrite <- in_rev. tauto.
        + rewrite (bind_formals_scope _ _ _ _ BF). rewrite !in_app_iff. right. right. unfold fvs_scope. rewrite <- in_rev. auto.
      - constructor; auto. exists sl5. split; auto. split; auto. lia. }
    assert (SF : m_sfp m6 = m_sfp m) by (simpl; apply (q_sfp _ _ _ Q5)).
    assert (KS : m_stk m6 = m_stk m) by (simpl; apply (q_stk _ _ _ Q5)).
    assert (EV : m_env m6 = en) by (simpl; apply (q_env _ _ _ Q5)).
    destruct x as [ws|y]; simpl in IB.
    - destruct IB as [m7 [B1 B2 B3 B4 B5 B6 B7 B8 B9]]. exists m1, m7. constructor; auto.
      + eapply reaches_trans; eauto.
      + congruence.
      + rewrite B4. simpl. rewrite (q_cc _ _ _ Q5). reflexivity.
      + intros i Li. rewrite B7 by lia. congruence.
      + intros j Lj. destruct K5 as [K5 _ G5]. cbn [m4 goto set_data m_data m_env m3] in K5, G5.
        assert (LE : List.length (d_envs (m_data m)) <= List.length (d_envs d4)) by apply G4.
        assert (LE5 := gr_envs _ _ G5).
        rewrite B8; [|simpl; lia|rewrite EV; unfold en; lia].
        change (nth_error (d_envs (m_data m5)) j = nth_error (d_envs (m_data m)) j).
        rewrite K5 by (unfold en; lia). subst d4. simpl. rewrite set_nth_ne by (unfold en; lia). apply nth_error_app1. auto.
      + eapply grows_trans; [exact G4|]. eapply grows_trans; [apply K5|]. exact B9.
    - destruct IB as [m7 [m8 [B1 [B2 B3]]]]. exists m8. split; auto. right. exists m1, m7. split; auto. split; auto. eapply reaches_trans; eauto.
  Qed.

  Lemma case_ap_clo_arity s f vs cls r :
    proc_at f (procs_of s) = Some (PClo cls r) -> select cls (List.length vs) = None ->
    sim_apply prim s f vs (RErr (ErrArity f (List.length vs))) s.
  Proof.
    intros PA SEL m CP FA R.
    assert (PR := proc_rel_at s (m_data m) f R). rewrite PA in PR. destruct PR as [k [CA [e [CO [WF FR]]]]].
    assert (EN := enter_ok m f k CP CA). set (m1 := entered m k) in *.
    destruct CO as [bounds [s0 [its [l [ar [s3 [its' [reloc [PO [CC [RR WC]]]]]]]]]]].
    assert (NE := proc_cls _ _ _ _ _ _ _ _ _ PO CC).
    destruct (clauses_assembled _ _ _ _ _ _ _ _ NE CC) as [AS _].
    set (P := its ++ [Lab l; ins Ido_arity_error]) in *. set (T := tmpls s3) in *.
    assert (PL : placed (m_code m1) T P) by (eapply placed_of; eauto).
    assert (SZ := proc_size _ _ _ PO).
    assert (LV : m_ac m = List.length vs) by (unfold frame_args in FA; apply args_from_spec in FA; symmetry; apply FA).
    assert (DP := dispatch T P (free_vars e) l [] cls bounds None ANull s0 its ar s3 m1 CC PL (here_start P) (or_introl eq_refl) SZ).
    cbn [m1 entered m_ac] in DP. rewrite LV, SEL in DP. destruct DP as [pc [R1 F]].
    exists (counted m1 pc). split; [exact R|]. right. exists m1, (counted m1 pc). split; auto. split; auto.
    rewrite (step_exec _ (counted m1 pc) _ F). cbn [Vm.exec counted goto set_r0 m1 entered m_cp m_ac]. rewrite CP, LV. reflexivity.
  Qed.

  (** ** Hand-written procedures *)
  Lemma do_ret_assembled n i : assembled (do_ret_items n i).
  Proof.
    unfold assembled, do_ret_items. simpl. split; [repeat constructor; simpl; tauto|].
    split; [eexists _, _; reflexivity|]. exists Ido_arity_error. eexists [_; _; _; _; _]. reflexivity.
  Qed.
  Lemma values_assembled : assembled values_items.
  Proof.
    unfold assembled, values_items. simpl. split; [constructor|]. split; [eexists _, _; reflexivity|]. exists Iret. eexists [_]. reflexivity.
  Qed.
  Lemma apply_assembled : assembled apply_items.
  Proof.
    unfold assembled, apply_items. simpl. split; [repeat constructor; simpl; tauto|].
    split; [eexists _, _; reflexivity|]. exists Ido_arity_error. eexists [_; _; _; _; _]. reflexivity.
  Qed.

  Lemma do_ret_run n i i' ar m k vs :
    written (do_ret_items n i) ar = Some (c_code k) -> retarget (labpos 0 (do_ret_items n i)) (template []) i = Some i' ->
    frame_args m = Some vs ->
    if List.length vs =? n
    then reaches (entered m k) (counted (entered m k) 2) /\ nth_error (instrs_of (c_code k)) 2 = Some i' /\
         nth_error (instrs_of (c_code k)) 3 = Some Iret
    else reaches (entered m k) (counted (entered m k) 4) /\ nth_error (instrs_of (c_code k)) 4 = Some Ido_arity_error.
  Proof.
    intros W RT FA. assert (PL := placed_written _ _ _ (do_ret_assembled n i) W).
    assert (LV : m_ac m = List.length vs) by (unfold frame_args in FA; apply args_from_spec in FA; symmetry; apply FA).
    assert (H := here_start (do_ret_items n i)). unfold do_ret_items in H at 2.
    assert (F0 : nth_error (instrs_of (c_code k)) 0 = Some (Imov Rres Rac)) by (eapply here_plain; eauto).
    apply here_ins in H.
    assert (F1 : nth_error (instrs_of (c_code k)) 1 = Some (Ibranchne n 4)) by (eapply here_plain; eauto).
    apply here_ins in H.
    assert (F2 : nth_error (instrs_of (c_code k)) 2 = Some i') by (eapply here_plain; eauto).
    apply here_ins in H.
    assert (F3 : nth_error (instrs_of (c_code k)) 3 = Some Iret) by (eapply here_plain; eauto).
    apply here_ins in H. apply here_lab in H.
    assert (F4 : nth_error (instrs_of (c_code k)) 4 = Some Ido_arity_error) by (eapply here_plain; eauto).
    assert (R1 : reaches (entered m k) (counted (entered m k) 1)) by (eapply one; [exact F0|reflexivity]).
    assert (R2 : reaches (entered m k) (counted (entered m k) (if List.length vs =? n then 2 else 4))).
    { eapply reaches_trans; [exact R1|]. eapply one; [exact F1|]. cbn [Vm.exec counted goto set_r0 m_r0 entered m_ac]. rewrite LV.
      destruct (List.length vs =? n); reflexivity. }
    destruct (List.length vs =? n); auto.
  Qed.

  Lemma do_ret_arity n i i' ar s f vs k m :
    written (do_ret_items n i) ar = Some (c_code k) -> retarget (labpos 0 (do_ret_items n i)) (template []) i = Some i' ->
    clo_at (RV f) (m_data m) = Some k -> m_cp m = RV f -> frame_args m = Some vs -> drel s (m_data m) -> List.length vs <> n ->
    call_fails m (ErrArity f (List.length vs)) s.
  Proof.
    intros W RT CA CP FA R NE. assert (D := do_ret_run _ _ _ _ m k vs W RT FA).
    assert (LV : m_ac m = List.length vs) by (unfold frame_args in FA; apply args_from_spec in FA; symmetry; apply FA).
    destruct (Nat.eqb_spec (List.length vs) n); [contradiction|]. destruct D as [R4 F4].
    exists (counted (entered m k) 4). split; [exact R|]. right. exists (entered m k), (counted (entered m k) 4).
    split; [apply (enter_ok m f); auto|]. split; auto.
    rewrite (step_exec _ (counted (entered m k) 4) _ F4). cbn [Vm.exec counted goto set_r0 entered m_cp m_ac]. rewrite CP, LV. reflexivity.
  Qed.

  (** A procedure whose third instruction computes the result. *)
  Lemma do_ret_called n i i' ar s f vs k m v d' s' :
    written (do_ret_items n i) ar = Some (c_code k) -> retarget (labpos 0 (do_ret_items n i)) (template []) i = Some i' ->
    clo_at (RV f) (m_data m) = Some k -> m_cp m = RV f -> frame_args m = Some vs -> drel s (m_data m) -> List.length vs = n ->
    (forall m2, m_ac m2 = m_ac m -> m_sfp m2 = m_sfp m -> m_stk m2 = m_stk m -> m_data m2 = m_data m ->
       exec i' m2 = next (set_r0 (set_data m2 d') (RV v))) ->
    d_envs d' = d_envs (m_data m) -> grows (m_data m) d' -> drel s' d' ->
    exists m1 m', called m [v] s' m1 m'.
  Proof.
    intros W RT CA CP FA R LN EX EV G R'. assert (D := do_ret_run _ _ _ _ m k vs W RT FA).
    destruct (Nat.eqb_spec (List.length vs) n); [|contradiction]. destruct D as [R2 [F2 F3]].
    set (m2 := counted (entered m k) 2) in *.
    exists (entered m k), (goto (set_r0 (set_data m2 d') (RV v)) 3). constructor; auto.
    - apply (enter_ok m f); auto.
    - eapply reaches_trans; [exact R2|]. eapply one; [exact F2|]. rewrite EX; reflexivity.
    - reflexivity.
    - simpl. rewrite EV. auto.
  Qed.

  Lemma set_data_same m : set_data m (m_data m) = m.
  Proof. destruct m; reflexivity. Qed.

  Lemma proc_found s f p m : proc_at f (procs_of s) = Some p -> drel s (m_data m) ->
    exists k, clo_at (RV f) (m_data m) = Some k /\ prel p k (m_data m).
  Proof. intros E R. assert (X := proc_rel_at s (m_data m) f R). rewrite E in X. exact X. Qed.

  Lemma frame_len m vs : frame_args m = Some vs -> m_ac m = List.length vs.
  Proof. unfold frame_args. intros FA. apply args_from_spec in FA. symmetry. apply FA. Qed.

  Lemma case_ap_prim s f vs p v h :
    proc_at f (procs_of s) = Some (PPrim p (List.length vs)) -> List.length vs <= 6 -> prim p vs (heap_of s) = Some (PrimVal v h) ->
    sim_apply prim s f vs (RVals [v]) (set_heap h s).
  Proof.
    intros PA L6 PV m CP FA R. destruct (proc_found _ _ _ _ PA R) as [k [CA W]]. simpl in W. unfold prim_code in W.
    assert (LV := frame_len _ _ FA).
    eapply (do_ret_called _ _ (Iccall p) _ s f vs k m v (with_heap (m_data m) h)); eauto.
    - intros m2 E1 E2 E3 E4. cbn [Vm.exec]. rewrite E1, LV. destruct (Nat.ltb_spec 6 (List.length vs)); [lia|].
      assert (FA2 : frame_args m2 = Some vs) by (unfold frame_args; rewrite E1, E2, E3; exact FA).
      rewrite FA2, E4, <- (dr_heap _ _ R), PV. reflexivity.
    - constructor; auto.
    - eapply (drel_of s (m_data m)); auto; try apply R. constructor; auto.
  Qed.
  Lemma case_ap_prim_err s f vs p e h :
    proc_at f (procs_of s) = Some (PPrim p (List.length vs)) -> List.length vs <= 6 -> prim p vs (heap_of s) = Some (PrimErr e h) ->
    sim_apply prim s f vs (RErr (ErrPrim e)) (set_heap h s).
  Proof.
    intros PA L6 PV m CP FA R. destruct (proc_found _ _ _ _ PA R) as [k [CA W]]. simpl in W. unfold prim_code in W.
    assert (LV := frame_len _ _ FA). assert (D := do_ret_run _ _ (Iccall p) _ m k vs W eq_refl FA). rewrite Nat.eqb_refl in D.
    destruct D as [R2 [F2 _]]. set (m2 := counted (entered m k) 2) in *.
    exists (set_data m2 (with_heap (m_data m) h)). split.
    - eapply (drel_of s (m_data m)); auto; try apply R. constructor; auto.
    - right. exists (entered m k), m2. split; [apply (enter_ok m f); auto|]. split; auto.
      rewrite (step_exec _ m2 _ F2). cbn [Vm.exec]. change (m_ac m2) with (m_ac m). rewrite LV.
      destruct (Nat.ltb_spec 6 (List.length vs)); [lia|].
      assert (FA2 : frame_args m2 = Some vs) by exact FA. rewrite FA2. change (m_data m2) with (m_data m).
      rewrite <- (dr_heap _ _ R), PV. reflexivity.
  Qed.
  Lemma case_ap_prim_arity s f vs p n : proc_at f (procs_of s) = Some (PPrim p n) -> List.length vs <> n ->
    sim_apply prim s f vs (RErr (ErrArity f (List.length vs))) s.
  Proof.
    intros PA NE m CP FA R. destruct (proc_found _ _ _ _ PA R) as [k [CA W]].
    eapply (do_ret_arity n (Iccall p) (Iccall p)); eauto.
  Qed.
  Lemma case_ap_identity s f v : proc_at f (procs_of s) = Some PIdentity -> sim_apply prim s f [v] (RVals [v]) s.
  Proof.
    intros PA m CP FA R. destruct (proc_found _ _ _ _ PA R) as [k [CA W]].
    eapply (do_ret_called 1 _ (Iget_arg Rres 0) _ s f [v] k m v (m_data m)); eauto.
    - intros m2 E1 E2 E3 E4. cbn [Vm.exec]. rewrite E2, E3. unfold frame_args in FA. apply args_from_spec in FA. destruct FA as [_ FA].
      rewrite (FA 0 v eq_refl). cbn [store_reg or_undef]. rewrite <- E4, set_data_same. reflexivity.
    - apply grows_refl.
  Qed.
  Lemma case_ap_identity_arity s f vs : proc_at f (procs_of s) = Some PIdentity -> List.length vs <> 1 ->
    sim_apply prim s f vs (RErr (ErrArity f (List.length vs))) s.
  Proof.
    intros PA NE m CP FA R. destruct (proc_found _ _ _ _ PA R) as [k [CA W]].
    eapply (do_ret_arity 1 (Iget_arg Rres 0) (Iget_arg Rres 0)); eauto.
  Qed.
  Lemma case_ap_void s f : proc_at f (procs_of s) = Some PVoid -> sim_apply prim s f [] (RVals [VVoid]) s.
  Proof.
    intros PA m CP FA R. destruct (proc_found _ _ _ _ PA R) as [k [CA W]].
    eapply (do_ret_called 0 _ (Iliteral VVoid) _ s f [] k m VVoid (m_data m)); eauto.
    - intros m2 E1 E2 E3 E4. cbn [Vm.exec]. rewrite <- E4, set_data_same. reflexivity.
    - apply grows_refl.
  Qed.
  Lemma case_ap_void_arity s f vs : proc_at f (procs_of s) = Some PVoid -> List.length vs <> 0 ->
    sim_apply prim s f vs (RErr (ErrArity f (List.length vs))) s.
  Proof.
    intros PA NE m CP FA R. destruct (proc_found _ _ _ _ PA R) as [k [CA W]].
    eapply (do_ret_arity 0 (Iliteral VVoid) (Iliteral VVoid)); eauto.
  Qed.
  Lemma case_ap_values s f vs : proc_at f (procs_of s) = Some PValues -> sim_apply prim s f vs (RVals vs) s.
  Proof.
    intros PA m CP FA R. destruct (proc_found _ _ _ _ PA R) as [k [CA W]]. simpl in W.
    assert (PL := placed_written _ _ _ values_assembled W).
    assert (H := here_start values_items). unfold values_items in H at 2.
    assert (F0 : nth_error (instrs_of (c_code k)) 0 = Some Ido_values) by (eapply here_plain; eauto).
    apply here_ins in H.
    assert (F1 : nth_error (instrs_of (c_code k)) 1 = Some Iret) by (eapply here_plain; eauto).
    destruct (do_values_res vs (entered m k) FA (frame_len _ _ FA)) as [m2 [X [Y1 [Y2 [Y3 [Y4 [Y5 [Y6 [Y7 [Y8 [Y9 Y10]]]]]]]]]]].
    exists (entered m k), m2. constructor; auto.
    - apply (enter_ok m f); auto.
    - eapply one; [exact F0|exact X].
    - rewrite Y1, Y2. exact F1.
    - rewrite Y9. exact R.
    - rewrite Y8. auto.
    - rewrite Y9. auto.
    - rewrite Y9. apply grows_refl.
  Qed.

  (** ** apply *)
  Lemma apply_run m k vs : apply_code = Some (c_code k) -> frame_args m = Some vs ->
    if List.length vs <? 2
    then reaches (entered m k) (counted (entered m k) 4) /\ nth_error (instrs_of (c_code k)) 4 = Some Ido_arity_error
    else reaches (entered m k) (counted (entered m k) 2) /\ nth_error (instrs_of (c_code k)) 2 = Some Ido_apply.
  Proof.
    intros W FA. assert (PL := placed_written _ _ _ apply_assembled W). assert (LV := frame_len _ _ FA).
    assert (H := here_start apply_items). unfold apply_items in H at 2.
    assert (F0 : nth_error (instrs_of (c_code k)) 0 = Some (Imov Rres Rac)) by (eapply here_plain; eauto).
    apply here_ins in H.
    assert (F1 : nth_error (instrs_of (c_code k)) 1 = Some (Ibranchlt 2 4)) by (eapply here_plain; eauto).
    apply here_ins in H.
    assert (F2 : nth_error (instrs_of (c_code k)) 2 = Some Ido_apply) by (eapply here_plain; eauto).
    apply here_ins in H. apply here_ins in H. apply here_lab in H.
    assert (F4 : nth_error (instrs_of (c_code k)) 4 = Some Ido_arity_error) by (eapply here_plain; eauto).
    assert (R1 : reaches (entered m k) (counted (entered m k) 1)) by (eapply one; [exact F0|reflexivity]).
    assert (R2 : reaches (entered m k) (counted (entered m k) (if List.length vs <? 2 then 4 else 2))).
    { eapply reaches_trans; [exact R1|]. eapply one; [exact F1|]. cbn [Vm.exec counted goto set_r0 m_r0 entered m_ac]. rewrite LV.
      destruct (List.length vs <? 2); reflexivity. }
    destruct (List.length vs <? 2); auto.
  Qed.

  (** What the apply instruction does once it has two arguments. *)
  Lemma apply_exec m g mid l : frame_args m = Some (g :: mid ++ [l]) ->
    exec Ido_apply m =
      match clo_at (RV g) (m_data m) with
      | None => Fail (ErrApply g) (set_cp m (RV g) (m_ac m))
      | Some _ =>
          match read_list (List.length (d_heap (m_data m))) (d_heap (m_data m)) l with
          | None => Undef
          | Some None => Fail (ErrApply l) (set_cp m (RV g) (m_ac m))
          | Some (Some xs) => do_application (set_stack (set_cp m (RV g) (m_ac m)) (push_all (m_stk m) (S (m_sfp m)) (mid ++ xs)) (List.length (mid ++ xs)))
          end
      end.
  Proof.
    intros FA. cbn [Vm.exec]. rewrite FA.
    assert (NE : mid ++ [l] <> []) by (destruct mid; discriminate).
    destruct (mid ++ [l]) as [|a r] eqn:E; [contradiction|].
    assert (LA : last (a :: r) VNull = l) by (rewrite <- E; apply last_last).
    assert (RL : removelast (a :: r) = mid) by (rewrite <- E; apply removelast_last).
    rewrite LA, RL. destruct (clo_at (RV g) (m_data m)); auto.
    destruct (read_list _ _ l) as [[xs|]|]; auto. rewrite push_all_app, app_length. reflexivity.
  Qed.

  Lemma two_args {A} (g l : A) mid : List.length (g :: mid ++ [l]) <? 2 = false.
  Proof. apply Nat.ltb_ge. simpl. rewrite app_length. simpl. lia. Qed.

  Lemma case_ap_apply s f g mid l elems x s1 :
    proc_at f (procs_of s) = Some PApply -> proc_at g (procs_of s) <> None -> list_at (heap_of s) l elems ->
    sim_apply prim s g (mid ++ elems) x s1 -> sim_apply prim s f (g :: mid ++ [l]) x s1.
  Proof.
    intros PA PG LA IH m CP FA R. destruct (proc_found _ _ _ _ PA R) as [k [CA W]].
    assert (AR := apply_run m k _ W FA). rewrite two_args in AR. destruct AR as [R2 F2].
    set (m2 := counted (entered m k) 2) in *.
    assert (X := apply_exec m2 g mid l FA). rewrite (step_exec _ m2 _ F2) in * || idtac.
    assert (CG : clo_at (RV g) (m_data m2) <> None).
    { assert (Y := proc_rel_at s (m_data m) g R). destruct (proc_at g (procs_of s)); [|contradiction]. destruct Y as [kg [Y _]].
      change (clo_at (RV g) (m_data m) <> None). rewrite Y. discriminate. }
    destruct (clo_at (RV g) (m_data m2)) as [kg|] eqn:EG; [|contradiction].
    change (d_heap (m_data m2)) with (d_heap (m_data m)) in X. rewrite <- (dr_heap _ _ R) in X. rewrite (read_list_list _ _ _ LA) in X.
    set (m3 := set_stack (set_cp m2 (RV g) (m_ac m2)) (push_all (m_stk m2) (S (m_sfp m2)) (mid ++ elems)) (List.length (mid ++ elems))) in *.
    assert (FA3 : frame_args m3 = Some (mid ++ elems)) by (unfold frame_args; simpl; apply push_all_args).
    specialize (IH m3 eq_refl FA3 R).
    assert (ST : step m2 = do_application m3) by (rewrite (step_exec _ m2 _ F2); exact X).
    assert (EN : do_application m = Next (entered m k)) by (apply (enter_ok m f); auto).
    destruct x as [ws|y].
    - destruct IH as [m4 [m5 [B1 B2 B3 B4 B5 B6 B7 B8 B9 B10]]]. exists (entered m k), m5. constructor; auto.
      + eapply reaches_trans; [exact R2|]. econstructor; [rewrite ST; exact B1|exact B2].
      + intros i Li. rewrite B8 by exact Li. simpl. apply push_all_low. lia.
    - destruct IH as [m4 [D [F|[m5 [m6 [B1 [B2 B3]]]]]]]; exists m4; (split; [exact D|]); right.
      + exists (entered m k), m2. split; auto. split; auto. congruence.
      + exists (entered m k), m6. split; auto. split; auto. eapply reaches_trans; [exact R2|]. econstructor; [rewrite ST; exact B1|exact B2].
  Qed.
  Lemma case_ap_apply_arity s f vs : proc_at f (procs_of s) = Some PApply -> List.length vs < 2 ->
    sim_apply prim s f vs (RErr (ErrArity f (List.length vs))) s.
  Proof.
    intros PA L m CP FA R. destruct (proc_found _ _ _ _ PA R) as [k [CA W]].
    assert (AR := apply_run m k _ W FA). apply Nat.ltb_lt in L. rewrite L in AR. destruct AR as [R4 F4].
    exists (counted (entered m k) 4). split; [exact R|]. right. exists (entered m k), (counted (entered m k) 4).
    split; [apply (enter_ok m f); auto|]. split; auto.
    rewrite (step_exec _ (counted (entered m k) 4) _ F4). cbn [Vm.exec counted goto set_r0 entered m_cp m_ac].
    rewrite CP, (frame_len _ _ FA). reflexivity.
  Qed.
  Lemma case_ap_apply_err s f g mid l y :
    proc_at f (procs_of s) = Some PApply ->
    (proc_at g (procs_of s) = None /\ y = ErrApply g \/ proc_at g (procs_of s) <> None /\ improper (heap_of s) l /\ y = ErrApply l) ->
    sim_apply prim s f (g :: mid ++ [l]) (RErr y) s.
  Proof.
    intros PA PG m CP FA R. destruct (proc_found _ _ _ _ PA R) as [k [CA W]].
    assert (AR := apply_run m k _ W FA). rewrite two_args in AR. destruct AR as [R2 F2].
    set (m2 := counted (entered m k) 2) in *.
    assert (X := apply_exec m2 g mid l FA).
    assert (Y := proc_rel_at s (m_data m) g R). change (m_data m2) with (m_data m) in X.
    exists (set_cp m2 (RV g) (m_ac m2)). split; [exact R|]. right. exists (entered m k), m2. split; [apply (enter_ok m f); auto|]. split; auto.
    rewrite (step_exec _ m2 _ F2), X. destruct PG as [[PG ->]|[PG [IM ->]]].
    - rewrite PG in Y. rewrite Y. reflexivity.
    - destruct (proc_at g (procs_of s)); [|contradiction]. destruct Y as [kg [Y _]]. rewrite Y.
      rewrite <- (dr_heap _ _ R), (read_list_improper _ _ IM). reflexivity.
  Qed.
  Lemma case_ap_not s f vs : proc_at f (procs_of s) = None -> sim_apply prim s f vs (RErr (ErrNotProc f)) s.
  Proof.
    intros PA m CP FA R. assert (Y := proc_rel_at s (m_data m) f R). rewrite PA in Y.
    exists m. split; auto. left. unfold do_application. rewrite CP, Y. reflexivity.
  Qed.

  Lemma absent t r s e x s1 : (forall i c, wf i c e = false) -> sim_eval prim t r s e x s1.
  Proof. intros W T P sc tl clean cs its cs' m PL CM EX H W'. rewrite W in W'. discriminate. Qed.
  Lemma case_lit t r s e v : (e = EConst v \/ e = EUnbound /\ v = VUnbound) -> sim_eval prim t r s e (RVals [v]) s.
  Proof.
    intros E T P sc tl clean cs its cs' m PL CM EX H W TC CL CX.
    destruct E as [-> | [-> ->]]; inversion CM; subst; try discriminate; eapply sim_lit; eauto.
  Qed.
  Lemma case_var t r s x v s1 :
    match lookup_env x r with
    | Some l => nth_error (cells_of s) l = Some v
    | None => glob_ref x (glob_of s) = Some v \/ v = VUnbound /\ glob_ref x (glob_of s) = None
    end -> s1 = s ->
    sim_eval prim t r s (EVar x) (match v with VUnbound => RErr (ErrInit x) | _ => RVals [v] end) s1.
  Proof.
    intros E -> T P sc tl clean cs its cs' m PL CM EX H W TC CL CX. eapply sim_var; eauto.
  Qed.

  (** ** Every evaluation is simulated *)
  Theorem simulation :
    (forall t r s e x s', eval prim t r s e x s' -> sim_eval prim t r s e x s') /\
    (forall t r s es x s', evseq prim t r s es x s' -> sim_seq prim t r s es x s') /\
    (forall t r s e x s', eval1 prim t r s e x s' -> sim_eval1 prim t r s e x s') /\
    (forall t r s es x s', evargs prim t r s es x s' -> sim_args prim t r s es x s') /\
    (forall t r s bs x s', evbinds prim t r s bs x s' -> True) /\
    (forall t r s k bs x s', evrec prim t r s k bs x s' -> True) /\
    (forall s f vs x s', apply prim s f vs x s' -> sim_apply prim s f vs x s').
  Proof.
    apply (eval_mins prim (fun t r s e x s' => sim_eval prim t r s e x s') (fun t r s e x s' => sim_seq prim t r s e x s')
             (fun t r s e x s' => sim_eval1 prim t r s e x s') (fun t r s e x s' => sim_args prim t r s e x s')
             (fun _ _ _ _ _ _ => True) (fun _ _ _ _ _ _ _ => True) (fun s f vs x s' => sim_apply prim s f vs x s')); auto.
    - intros. apply case_lit. auto.
    - intros. apply case_lit. auto.
    - intros t r s x l v L N V. assert (Q := case_var t r s x v s). rewrite L in Q. destruct v; auto; contradiction.
    - intros t r s x l L N. apply (case_var t r s x VUnbound s); [rewrite L; auto|reflexivity].
    - intros t r s x v L N V. assert (Q := case_var t r s x v s). rewrite L in Q. destruct v; auto; contradiction.
    - intros t r s x L N. apply (case_var t r s x VUnbound s); [rewrite L; destruct N; auto|reflexivity].
    - intros. apply case_define; auto.
    - intros. apply case_define_bad; auto.
    - intros. apply case_define_err; auto.
    - intros. apply case_set_local; auto.
    - intros. eapply case_set_global; eauto.
    - intros. apply case_set_global_in; auto.
    - intros. apply case_set_err; auto.
    - intros t r s fm body v s1 NP. eapply (case_proc t r s (ELam fm body)); [reflexivity|exact NP].
    - intros t r s cls v s1 NE NP. eapply (case_proc t r s (ECase cls)); [reflexivity|exact NP].
    - intros. apply case_begin; auto.
    - intros. eapply case_if; eauto.
    - intros. eapply case_if; eauto.
    - intros. apply case_if_err; auto.
    - intros. eapply case_app; eauto.
    - intros. apply case_app_err; auto.
    - intros. apply case_app_err; eauto.
    - intros. eapply case_mvcall; eauto.
    - intros. apply case_mvcall_err; auto.
    - intros. apply case_mvcall_err; eauto.
    - intros. eapply case_mvlet; eauto.
    - intros. apply case_mvlet_bad; auto.
    - intros. apply case_mvlet_err; auto.
    - intros t r s es vs s1 E IH. apply case_mvvalues; auto. intros ->. inversion E. reflexivity.
    - intros t r s es y s1 E IH. apply case_mvvalues_err; auto. intros ->. inversion E.
    - intros; apply absent; reflexivity.
    - intros; apply absent; reflexivity.
    - intros; apply absent; reflexivity.
    - intros; apply absent; reflexivity.
    - intros; apply absent; reflexivity.
    - intros; apply absent; reflexivity.
    - intros; apply absent; reflexivity.
    - intros; apply absent; reflexivity.
    - intros; apply absent; reflexivity.
    - intros; apply absent; reflexivity.
    - intros. apply case_seq_nil.
    - intros. apply case_seq_last; auto.
    - intros. eapply case_seq_cons; eauto.
    - intros. apply case_seq_err; auto.
    - intros. apply case_e1_val; auto.
    - intros. apply case_e1_bad; auto.
    - intros. apply case_e1_err; auto.
    - intros. apply case_args_nil.
    - intros t r s e es v s1 vs s2 _ I1 _ I2. exact (case_args_cons t r s e es v s1 (inl vs) s2 I1 I2).
    - intros. apply case_args_err; auto.
    - intros t r s e es v s1 y s2 _ I1 _ I2. exact (case_args_cons t r s e es v s1 (inr y) s2 I1 I2).
    - intros. eapply case_ap_clo; eauto.
    - intros. eapply case_ap_clo_arity; eauto.
    - intros. eapply case_ap_prim; eauto.
    - intros. eapply case_ap_prim_err; eauto.
    - intros. eapply case_ap_prim_arity; eauto.
    - intros. apply case_ap_values; auto.
    - intros. apply case_ap_identity; auto.
    - intros. apply case_ap_identity_arity; auto.
    - intros. apply case_ap_void; auto.
    - intros. apply case_ap_void_arity; auto.
    - intros. eapply case_ap_apply; eauto.
    - intros. apply case_ap_apply_arity; auto.
    - intros s f g vs A B NE. destruct (exists_last NE) as [mid [l ->]]. apply case_ap_apply_err; auto.
    - intros. apply case_ap_apply_err; auto.
    - intros. apply case_ap_not; auto.
  Qed.
End Sim.
