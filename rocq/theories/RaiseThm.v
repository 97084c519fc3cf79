(** C50: errors reach the installed handler. *)
From Coq Require Import ZArith NArith Bool Ascii String List Arith Lia.
From Verif Require Import Base Heap HeapM Ast Code Compile Sem Vm CompRel Sim SimLemmas SimProofs TailProofs SimThm Raise.
Import ListNotations.
Local Open Scope list_scope.

Section C50.
  Variable prim : N -> list val -> heap -> option presult.
  Variables p_set p_get p_cset : N.
  Variable describe : err -> option (list byte) * list byte * list val.
  (** The functions that access the handlers are not among the other primitives. *)
  Hypothesis set_apart : forall p vs h, p = p_set \/ p = p_get \/ p = p_cset -> prim p vs h = None.
  Notation xstep := (xstep prim p_set p_get p_cset describe).
  Notation xreaches := (xreaches prim p_set p_get p_cset describe).

  (** ** Specification *)

  (** [calls t f vs]: thread [t] has just entered procedure [f] with arguments [vs]. *)
  Definition calls (t : thr) (f : val) (vs : list val) : Prop :=
    exists m, m_cp m = RV f /\ frame_args m = Some vs /\ do_application m = Next (x_m t).
  (** The same continuation: what is called next returns to where [m] would have. *)
  Definition same_continuation (m m' : mst) : Prop :=
    m_cc m' = m_cc m /\ m_sfp m' = m_sfp m /\ forall i, i <= m_sfp m -> m_stk m' i = m_stk m i.
  Definition procedure (d : data) (f : val) : Prop := clo_at (RV f) d <> None.

  (** ** Proofs *)
  Lemma handler_prim_step t m1 : step prim (x_m t) = Next m1 -> xstep t = XNext (Thr m1 (x_handler t) (x_chandler t)).
  Proof.
    intros E. unfold Raise.xstep. rewrite E. destruct (nth_error (instrs_of (m_code (x_m t))) (m_pc (x_m t))) as [i|] eqn:N; auto.
    destruct i; auto. unfold step in E. rewrite N in E. cbn [exec] in E. destruct (6 <? m_ac (x_m t)); [discriminate|]. destruct (frame_args (x_m t)) as [vs|]; [|discriminate].
    unfold handler_prim. destruct (N.eqb_spec p p_set); [subst; rewrite set_apart in E by auto; discriminate|].
    destruct (N.eqb_spec p p_get); [subst; rewrite set_apart in E by auto; discriminate|]. destruct (N.eqb_spec p p_cset); [subst; rewrite set_apart in E by auto; discriminate|]. reflexivity.
  Qed.
  Lemma lift m m' : reaches prim m m' -> forall h c, xreaches (Thr m h c) (Thr m' h c).
  Proof. induction 1 as [|m m1 m2 E R IH]; intros h c; [constructor|]. eapply XrStep; [|apply IH]. apply (handler_prim_step (Thr m h c)). auto. Qed.
  Lemma xreaches_trans a b c : xreaches a b -> xreaches b c -> xreaches a c.
  Proof. induction 1; auto. intros. econstructor; eauto. Qed.
  Lemma xstep_other t : (forall p, nth_error (instrs_of (m_code (x_m t))) (m_pc (x_m t)) <> Some (Iccall p)) ->
    xstep t = match step prim (x_m t) with
              | Next m1 => XNext (Thr m1 (x_handler t) (x_chandler t))
              | Done r m1 => XDone r (Thr m1 (x_handler t) (x_chandler t))
              | Fail e m1 => c_error describe t e m1
              | Raise m1 => c_raise describe t m1
              | Undef => XUndef
              end.
  Proof. intros N. unfold Raise.xstep. destruct (nth_error _ _) as [[]|]; auto. edestruct N; reflexivity. Qed.
  Lemma xstep_fail t e m : step prim (x_m t) = Fail e m -> xstep t = c_error describe t e m.
  Proof.
    intros E. unfold Raise.xstep. rewrite E. destruct (nth_error (instrs_of (m_code (x_m t))) (m_pc (x_m t))) as [i|] eqn:N; auto.
    destruct i; auto. unfold step in E. rewrite N in E. cbn [exec] in E. destruct (6 <? m_ac (x_m t)); [discriminate|]. destruct (frame_args (x_m t)) as [vs|]; [|discriminate].
    unfold handler_prim. destruct (N.eqb_spec p p_set); [subst; rewrite set_apart in E by auto; discriminate|].
    destruct (N.eqb_spec p p_get); [subst; rewrite set_apart in E by auto; discriminate|]. destruct (N.eqb_spec p p_cset); [subst; rewrite set_apart in E by auto; discriminate|]. reflexivity.
  Qed.
  Lemma raise_to m f v k : m_cp m = RV f -> clo_at (RV f) (m_data m) = Some k -> raise_code = Some (c_code k) -> frame_args m = Some [v] ->
    exists m1 m2, do_application m = Next m1 /\ reaches prim m1 m2 /\ step prim m2 = Raise m2 /\ nth_error (instrs_of (m_code m2)) (m_pc m2) = Some Ido_raise /\
      m_cc m2 = m_cc m /\ m_sfp m2 = m_sfp m /\ m_stk m2 = m_stk m /\ m_ac m2 = m_ac m /\ m_data m2 = m_data m.
  Proof.
    intros CP CA RC FA. assert (D := do_ret_run prim 1 Ido_raise Ido_raise _ m k [v] RC eq_refl FA). cbn [List.length Nat.eqb] in D. destruct D as [R [N _]].
    exists (entered m k), (counted (entered m k) 2). split; [apply (enter_ok m f); auto|]. split; auto. split; [|auto 10].
    rewrite (step_exec _ (counted (entered m k) 2) _ N). reflexivity.
  Qed.

  Lemma c_raise_eq t m : x_handler t <> VFalse -> c_raise describe t m =
    match do_application (set_cp m (RV (x_handler t)) (m_ac m)) with
    | Next m1 => XNext (Thr m1 (x_handler t) (x_chandler t))
    | Fail e m1 => c_error describe t e m1
    | _ => XUndef
    end.
  Proof. intros N. unfold c_raise. destruct (x_handler t); try reflexivity. congruence. Qed.

  (** ** Theorems *)

  (** raise calls the installed handler with the raised object, whatever it is and whatever
      the state of the machine, in place of the continuation of the call of raise. *)
  Theorem C50_raise_calls_handler : forall m f k v h c,
    m_cp m = RV f -> clo_at (RV f) (m_data m) = Some k -> raise_code = Some (c_code k) -> frame_args m = Some [v] ->
    h <> VFalse -> procedure (m_data m) h ->
    exists m1 t, do_application m = Next m1 /\ xreaches (Thr m1 h c) t /\ calls t h [v] /\ same_continuation m (x_m t) /\
      m_data (x_m t) = m_data m /\ x_handler t = h /\ x_chandler t = c.
  Proof.
    intros m f k v h c CP CA RC FA NF P. destruct (raise_to m f v k CP CA RC FA) as [m1 [m2 [A [R [St [N [B1 [B2 [B3 [B4 B5]]]]]]]]]].
    unfold procedure in P. rewrite <- B5 in P. destruct (clo_at (RV h) (m_data m2)) as [kh|] eqn:KH; [|contradiction].
    set (m3 := set_cp m2 (RV h) (m_ac m2)). assert (E3 : do_application m3 = Next (entered m3 kh)) by (apply (enter_ok m3 h); auto).
    exists m1, (Thr (entered m3 kh) h c). split; auto. split; [|split; [|split; [|auto]]].
    - eapply xreaches_trans; [apply lift; exact R|]. eapply XrStep; [|constructor]. rewrite xstep_other by (cbn [x_m]; intros p; rewrite N; discriminate).
      cbn [x_m x_handler x_chandler]. rewrite St. rewrite c_raise_eq by auto. cbn [x_handler x_chandler]. fold m3. rewrite E3. reflexivity.
    - exists m3. split; auto. split; auto. unfold m3. unfold frame_args in *. cbn. rewrite B2, B3, B4. auto.
    - split; [exact B1|]. split; [exact B2|]. intros i _. cbn. rewrite B3. reflexivity.
  Qed.
  (** Without a handler the process ends. *)
  Theorem C50_raise_without_handler : forall m f k v c,
    m_cp m = RV f -> clo_at (RV f) (m_data m) = Some k -> raise_code = Some (c_code k) -> frame_args m = Some [v] ->
    exists m1 t, do_application m = Next m1 /\ xreaches (Thr m1 VFalse c) t /\ xstep t = XShutdown.
  Proof.
    intros m f k v c CP CA RC FA. destruct (raise_to m f v k CP CA RC FA) as [m1 [m2 [A [R [St [N _]]]]]].
    exists m1, (Thr m2 VFalse c). split; auto. split; [apply lift; auto|]. rewrite xstep_other by (cbn [x_m]; intros p; rewrite N; discriminate). cbn [x_m]. rewrite St. reflexivity.
  Qed.
  (** The handler is the procedure last given to the primitive behind current-error-handler. *)
  Theorem C50_handler_installed : forall t t',
    xstep t = XNext t' ->
    (nth_error (instrs_of (m_code (x_m t))) (m_pc (x_m t)) = Some (Iccall p_set) /\ frame_args (x_m t) = Some [x_handler t']) \/
    (nth_error (instrs_of (m_code (x_m t))) (m_pc (x_m t)) <> Some (Iccall p_set) /\ x_handler t' = x_handler t).
  Proof.
    intros t t' E.
    assert (P : forall o, match o with
              | Next m1 => XNext (Thr m1 (x_handler t) (x_chandler t))
              | Done r m1 => XDone r (Thr m1 (x_handler t) (x_chandler t))
              | Fail e m1 => c_error describe t e m1
              | Raise m1 => c_raise describe t m1
              | Undef => XUndef
              end = XNext t' -> x_handler t' = x_handler t).
    { assert (CE : forall e m, c_error describe t e m = XNext t' -> x_handler t' = x_handler t).
      { intros e m. unfold c_error. destruct (m_cc m); [discriminate|]. destruct (report describe e (d_heap (m_data m))) as [[[n0 s0] l0] h0].
        destruct (x_chandler t); try discriminate; (destruct (do_application _); try discriminate; intros X; injection X as <-; reflexivity). }
      intros [m1|r m1|e m1|m1|] X; try discriminate; [injection X as <-; reflexivity|eauto|].
      unfold c_raise in X. destruct (x_handler t) eqn:H; try discriminate; (destruct (do_application _) as [m2|r m2|e m2|m2|]; try discriminate; [injection X as <-; reflexivity|eauto]). }
    unfold Raise.xstep in E. destruct (nth_error (instrs_of (m_code (x_m t))) (m_pc (x_m t))) as [i|] eqn:N; [|right; split; [discriminate|eauto]].
    destruct i; try (right; split; [discriminate|eauto; fail]). unfold handler_prim in E. destruct (N.eqb_spec p p_set) as [->|NE].
    - destruct (frame_args (x_m t)) as [[|h [|? ?]]|]; try discriminate. injection E as <-. left. auto.
    - right. split; [congruence|]. destruct (N.eqb p p_get); [destruct (frame_args (x_m t)) as [[|? ?]|]; try discriminate; injection E as <-; reflexivity|].
      destruct (N.eqb p p_cset); [destruct (frame_args (x_m t)) as [[|? [|? ?]]|]; try discriminate; injection E as <-; reflexivity|eauto].
  Qed.


  (** An error of C code, as the handler of C errors gets it: a name or #f, the message
      and a list of the objects. *)
  Definition string_is (h : heap) (v : val) (b : list byte) : Prop := exists a, v = VPtr a /\ nth_error h a = Some (CStr b).
  Definition reported (e : err) (h : heap) (n s : val) : Prop :=
    match fst (fst (describe e)) with None => n = VFalse | Some b => string_is h n b end /\ string_is h s (snd (fst (describe e))).

  Lemma string_ext h h' v b : extends h h' -> string_is h v b -> string_is h' v b.
  Proof. intros X [a [E N]]. exists a. split; auto. eapply extends_nth; eauto. Qed.
  Lemma report_ok e h n s l h' : report describe e h = (n, s, l, h') -> extends h h' /\ reported e h' n s /\ list_at h' l (snd (describe e)).
  Proof.
    unfold report, reported. destruct (describe e) as [[nm msg] objs]. cbn [fst snd]. unfold new_list, alloc.
    assert (LA := list_cells_at h objs). set (h1 := h ++ list_cells (List.length h) objs) in *. set (l0 := match objs with [] => VNull | _ => VPtr (List.length h) end) in *.
    assert (X1 : extends h h1) by apply extends_app. destruct nm as [b|]; intros E; injection E as <- <- <- <-.
    - assert (X2 : extends h1 (h1 ++ [CStr b])) by apply extends_app. assert (X3 : extends (h1 ++ [CStr b]) ((h1 ++ [CStr b]) ++ [CStr msg])) by apply extends_app.
      split; [eapply extends_trans; eauto; eapply extends_trans; eauto|]. split; [split|].
      + eapply string_ext; eauto. exists (List.length h1). split; auto. rewrite nth_error_app2, Nat.sub_diag by lia. reflexivity.
      + eexists. split; [reflexivity|]. rewrite nth_error_app2, Nat.sub_diag by lia. reflexivity.
      + eapply list_at_ext; [|exact LA]. eapply extends_trans; eauto.
    - assert (X3 : extends h1 (h1 ++ [CStr msg])) by apply extends_app.
      split; [eapply extends_trans; eauto|]. split; [split; auto|].
      + eexists. split; [reflexivity|]. rewrite nth_error_app2, Nat.sub_diag by lia. reflexivity.
      + eapply list_at_ext; eauto.
  Qed.
  Lemma c_error_eq t e m n s l h : m_cc m <> [] -> x_chandler t <> VFalse -> report describe e (d_heap (m_data m)) = (n, s, l, h) ->
    c_error describe t e m =
      match do_application (M (m_code m) (m_pc m) RNull RNull (RV (x_chandler t)) 3 (m_sfp m) (push_all (m_stk m) (S (m_sfp m)) [n; s; l])
                              (m_cc m) (m_env m) (m_vc m) (m_vals m) (with_heap (m_data m) h)) with
      | Next m1 => XNext (Thr m1 (x_handler t) (x_chandler t))
      | Fail _ _ => XLoop
      | _ => XUndef
      end.
  Proof. intros N F R. unfold c_error. destruct (m_cc m); [congruence|]. rewrite R. destruct (x_chandler t); try reflexivity. congruence. Qed.

  Lemma c_error_at t e m s : step prim (x_m t) = Fail e m -> m_cc m <> [] -> drel s (m_data m) -> procedure (m_data m) (x_chandler t) -> x_chandler t <> VFalse ->
    exists m3 m4 n msg l h, xstep t = XNext (Thr m4 (x_handler t) (x_chandler t)) /\ do_application m3 = Next m4 /\
      at_call m3 (x_chandler t) [n; msg; l] (set_heap h s) /\ same_continuation m m3 /\
      extends (d_heap (m_data m)) h /\ reported e h n msg /\ list_at h l (snd (describe e)).
  Proof.
    intros St NC D P NF. destruct (report describe e (d_heap (m_data m))) as [[[n msg] l] h] eqn:R. assert (RO := report_ok _ _ _ _ _ _ R). destruct RO as [X1 [X2 X3]].
    set (m3 := M (m_code m) (m_pc m) RNull RNull (RV (x_chandler t)) 3 (m_sfp m) (push_all (m_stk m) (S (m_sfp m)) [n; msg; l]) (m_cc m) (m_env m) (m_vc m) (m_vals m) (with_heap (m_data m) h)).
    assert (CA : clo_at (RV (x_chandler t)) (m_data m3) <> None) by (destruct (x_chandler t); auto). destruct (clo_at (RV (x_chandler t)) (m_data m3)) as [k|] eqn:K; [|contradiction].
    exists m3, (entered m3 k), n, msg, l, h. assert (E3 : do_application m3 = Next (entered m3 k)) by (apply (enter_ok m3 (x_chandler t)); auto).
    split; [|split; [auto|split; [|split; [|auto]]]].
    - rewrite (xstep_fail t e m St), (c_error_eq t e m n msg l h NC NF R). fold m3. rewrite E3. reflexivity.
    - split; [reflexivity|]. split.
      + exact (push_all_args [n; msg; l] (m_stk m) (S (m_sfp m))).
      + destruct D as [D1 D2 D3 D4]. cbn [m_data]. eapply (drel_of s (m_data m)); auto; constructor; auto.
    - split; [reflexivity|]. split; [reflexivity|]. intros i Li. apply (push_all_low [n; msg; l]). lia.
  Qed.

  (** An error of C code (a primitive, a procedure given the wrong number of arguments, a
      variable read too early, the application of something else than a procedure...) calls
      the handler of C errors, in place of the continuation of the failing frame.
      Partial: only below some other call, see [C50_top_level_refuted]. *)
  Theorem C50_c_error_calls_handler_partial : forall t e m s,
    step prim (x_m t) = Fail e m -> m_cc m <> [] -> drel s (m_data m) -> procedure (m_data m) (x_chandler t) ->
    exists t' n msg l, xreaches t t' /\ calls t' (x_chandler t) [n; msg; l] /\ same_continuation m (x_m t') /\
      extends (d_heap (m_data m)) (d_heap (m_data (x_m t'))) /\ reported e (d_heap (m_data (x_m t'))) n msg /\
      list_at (d_heap (m_data (x_m t'))) l (snd (describe e)) /\ x_handler t' = x_handler t /\ x_chandler t' = x_chandler t.
  Proof.
    intros t e m s St NC D P. assert (NF : x_chandler t <> VFalse) by (intros F; apply P; rewrite F; reflexivity).
    destruct (c_error_at t e m s St NC D P NF) as [m3 [m4 [n [msg [l [h [X1 [X2 [[X3 [X3' X3'']] [X4 [X5 [X6 X7]]]]]]]]]]]].
    exists (Thr m4 (x_handler t) (x_chandler t)), n, msg, l. assert (Em := X2). unfold do_application in Em. rewrite X3 in Em.
    destruct (clo_at (RV (x_chandler t)) (m_data m3)) as [k|] eqn:K; [|discriminate]. injection Em as <-. cbn [m_data m_cc m_sfp m_stk x_m].
    assert (Eh : h = d_heap (m_data m3)) by exact (dr_heap _ _ X3''). rewrite <- Eh.
    split; [eapply XrStep; [exact X1|constructor]|]. split; [exists m3; auto|]. destruct X4 as [Y1 [Y2 Y3]]. split; [split; [exact Y1|split; [exact Y2|exact Y3]]|]. auto 10.
  Qed.

  Lemma call_lift n m m' : call_runs prim n m m' -> forall mf, do_application m' = Next mf -> exists m1, do_application m = Next m1 /\ reaches prim m1 mf.
  Proof.
    induction 1 as [m|n m m1 m2 m3 m4 A R St C IH]; intros mf E; [exists mf; split; auto; constructor|].
    destruct (IH _ E) as [m5 [A5 R5]]. exists m1. split; auto. eapply reaches_trans; [exact R|]. econstructor; [rewrite St; exact A5|exact R5].
  Qed.
  Lemma c_handler_chain s ch ap er n msg l objs :
    proc_at ch (procs_of s) = Some (PClo [c_handler] []) -> glob_ref (Id "apply") (glob_of s) = Some ap -> glob_ref (Id "error") (glob_of s) = Some er ->
    proc_at ap (procs_of s) = Some PApply -> proc_at er (procs_of s) <> None -> list_at (heap_of s) l objs -> n <> VUnbound -> msg <> VUnbound -> l <> VUnbound ->
    tchain prim 2 s ch [n; msg; l] er (n :: msg :: objs) (add_cells [n; msg; l] s).
  Proof.
    intros P GA GE PA PE LA N1 N2 N3. set (s1 := add_cells [n; msg; l] s).
    set (r1 := bind_env [id_who; id_msg; id_args] (List.length (cells_of s)) []).
    assert (NE : forall f p, proc_at f p <> None -> f <> VUnbound) by (intros f p X ->; apply X; reflexivity).
    eapply (ChCons prim 1 s ch [n; msg; l] ap [er; n; msg; l] s1).
    - eapply TsClo; [exact P|reflexivity|reflexivity|]. cbn [snd c_handler]. fold s1. fold r1. apply TsLast. eapply TcApp.
      + apply E1Val. apply EvGlobal; [reflexivity|exact GA|]. eapply NE. rewrite PA. discriminate.
      + assert (L : forall x i v, lookup_env x r1 = Some (List.length (cells_of s) + i) -> nth_error [n; msg; l] i = Some v -> v <> VUnbound -> eval1 prim false r1 s1 (EVar x) (inl v) s1).
        { intros x i v Lx Nx Nu. apply E1Val. eapply EvLocal; [exact Lx| |exact Nu]. unfold s1. cbn [add_cells cells_of]. rewrite nth_error_app2 by lia. replace (_ + i - _) with i by lia. exact Nx. }
        eapply EaCons; [apply E1Val; apply EvGlobal; [reflexivity|exact GE|eapply NE; exact PE]|].
        eapply EaCons; [apply (L _ 0); [unfold r1; cbn; f_equal; lia|reflexivity|exact N1]|].
        eapply EaCons; [apply (L _ 1); [unfold r1; cbn; f_equal; lia|reflexivity|exact N2]|].
        eapply EaCons; [apply (L _ 2); [unfold r1; cbn; f_equal; lia|reflexivity|exact N3]|]. apply EaNil.
    - eapply (ChCons prim 0 s1 ap [er; n; msg; l] er (n :: msg :: objs) s1); [|constructor].
      exact (TsApply prim s1 ap er [n; msg] l objs PA PE LA).
  Qed.

  (** What the prelude makes of it: once its handler of C errors is in place, such an
      error is a call of the global procedure error with the name, the message and the
      objects. *)
  Theorem C50_c_error_becomes_error_partial : forall t e m s ap er,
    step prim (x_m t) = Fail e m -> m_cc m <> [] -> drel s (m_data m) ->
    proc_at (x_chandler t) (procs_of s) = Some (PClo [c_handler] []) ->
    glob_ref (Id "apply") (glob_of s) = Some ap -> proc_at ap (procs_of s) = Some PApply ->
    glob_ref (Id "error") (glob_of s) = Some er -> proc_at er (procs_of s) <> None ->
    exists t' n msg h, xreaches t t' /\ calls t' er (n :: msg :: snd (describe e)) /\ same_continuation m (x_m t') /\
      extends (d_heap (m_data m)) h /\ reported e h n msg /\ d_heap (m_data (x_m t')) = h /\ x_handler t' = x_handler t.
  Proof.
    intros t e m s ap er St NC D PC GA PA GE PE.
    assert (P : procedure (m_data m) (x_chandler t)) by (assert (X := proc_rel_at s (m_data m) (x_chandler t) D); rewrite PC in X; destruct X as [k [X _]]; unfold procedure; rewrite X; discriminate).
    assert (NF : x_chandler t <> VFalse) by (intros F; rewrite F in PC; discriminate).
    destruct (c_error_at t e m s St NC D P NF) as [m3 [m4 [n [msg [l [h [X1 [X2 [X3 [X4 [X5 [X6 X7]]]]]]]]]]]].
    assert (CH := c_handler_chain (set_heap h s) (x_chandler t) ap er n msg l (snd (describe e)) PC GA GE PA PE X7).
    assert (Nn : n <> VUnbound) by (destruct X6 as [X6 _]; destruct (fst (fst (describe e))); [destruct X6 as [a [-> _]]|subst]; discriminate).
    assert (Nm : msg <> VUnbound) by (destruct X6 as [_ [a [-> _]]]; discriminate).
    assert (Nl : l <> VUnbound) by (intros ->; inversion X7; discriminate). specialize (CH Nn Nm Nl).
    destruct (C33_tail_calls_constant_continuation prim _ _ _ _ _ _ _ _ X3 CH) as [m5 [CR [AC [CC [SF SK]]]]].
    destruct AC as [CP [FA D5]]. assert (X := proc_rel_at _ _ er D5). cbn [procs_of add_cells set_heap] in X.
    destruct (proc_at er (procs_of s)) as [pe|]; [|contradiction]. destruct X as [k [K _]].
    assert (E5 := enter_ok m5 er k CP K). destruct (call_lift _ _ _ CR _ E5) as [m6 [A6 R6]]. rewrite X2 in A6. injection A6 as <-.
    exists (Thr (entered m5 k) (x_handler t) (x_chandler t)), n, msg, h. split; [eapply XrStep; [exact X1|apply lift; exact R6]|].
    split; [exists m5; auto|]. destruct X4 as [Y1 [Y2 Y3]]. split; [|split; [auto|split; [auto|split; [|auto]]]].
    - split; [cbn; congruence|]. split; [cbn; congruence|]. intros i Li. cbn. rewrite SK by (rewrite Y2; auto). auto.
    - symmetry. exact (dr_heap _ _ D5).
  Qed.

  (** For whole programs: a top-level expression whose meaning is an error comes, if the
      error happens below some call, to a call of error; the process ends otherwise. *)
  Theorem C50_program_error_partial : forall e c s d y s' stk env vc vals h ch ap er,
    compile_top e = Some c -> wf false true e = true -> eval prim true [] s e (RErr y) s' -> drel s d -> env < List.length (d_envs d) ->
    proc_at ch (procs_of s') = Some (PClo [c_handler] []) ->
    glob_ref (Id "apply") (glob_of s') = Some ap -> proc_at ap (procs_of s') = Some PApply ->
    glob_ref (Id "error") (glob_of s') = Some er -> proc_at er (procs_of s') <> None ->
    exists t, xreaches (Thr (start c stk env vc vals d) h ch) t /\
      (xstep t = XShutdown \/
       exists t' n msg, xreaches t t' /\ calls t' er (n :: msg :: snd (describe y)) /\ reported y (d_heap (m_data (x_m t'))) n msg /\ x_handler t' = h).
  Proof.
    intros e c s d y s' stk env vc vals h ch ap er CT W EV D LE PC GA PA GE PE.
    destruct (top_run prim e c s d (RErr y) s' stk env vc vals CT W EV D LE) as [m [EN D']].
    assert (Z : exists m0, reaches prim (start c stk env vc vals d) m0 /\ step prim m0 = Fail y m).
    { destruct EN as [m0 [A [B _]]]. eauto. }
    destruct Z as [m0 [R St]]. exists (Thr m0 h ch). split; [apply lift; auto|].
    destruct (m_cc m) as [|fr cc] eqn:CC; [left|right].
    - rewrite (xstep_fail (Thr m0 h ch) y m St). unfold c_error. rewrite CC. reflexivity.
    - destruct (C50_c_error_becomes_error_partial (Thr m0 h ch) y m s' ap er) as [t' [n [msg [hh [X1 [X2 [X3 [X4 [X5 [X6 X7]]]]]]]]]]; auto; [rewrite CC; discriminate|].
      exists t', n, msg. rewrite X6. auto.
  Qed.

  (** FINDING: an error of C code that happens outside any call ends the process, whatever
      handlers are installed (error.c:8, current_continuation). *)
  Theorem C50_top_level_refuted : forall t e m,
    step prim (x_m t) = Fail e m -> m_cc m = [] -> xstep t = XShutdown.
  Proof. intros t e m St CC. rewrite (xstep_fail t e m St). unfold c_error. rewrite CC. reflexivity. Qed.
End C50.

(** ** The hypotheses are met *)
Definition ex_describe (e : err) : option (list byte) * list byte * list val := (None, list_ascii_of_string "failed", [VFix 3]).

Definition ex_sys50 : list (ident * sproc) :=
  [(Id "raise", PRaise); (Id "error", PValues); (Id "apply", PApply); (Id "set-handler", PPrim 5 1); (Id "set-c-handler", PPrim 7 1)].
Definition ex_step : thr -> xout := xstep no_prim 5 6 7 ex_describe.
Fixpoint xrun (n : nat) (t : thr) : xout :=
  match n with
  | O => XNext t
  | S n' => match ex_step t with XNext t1 => xrun n' t1 | o => o end
  end.
(** The program: two handlers are installed, then an error is raised and an error of C
    code happens, both below a call that is not the last one. *)
Definition ex_install : expr := EApp (EVar (Id "set-handler")) [EVar (Id "error")].
Definition ex_c_install : expr := EApp (EVar (Id "set-c-handler")) [ELam (fst c_handler) (snd c_handler)].
Definition ex_raise : expr := EBegin [EApp (ELam (Formals [idx] None) [EApp (EVar (Id "raise")) [EVar idx]]) [EConst (VFix 9)]; EConst (VFix 5)].
Definition ex_nope : expr := EBegin [EApp (ELam (Formals [idx] None) [EVar (Id "nope")]) [EConst (VFix 9)]; EConst (VFix 6)].
Definition ex_top (e : expr) (t : option thr) (n : nat) : option xout :=
  match t, compile_top e with
  | Some t, Some c => Some (xrun n (Thr (start c (fun _ => SNone) 0 0 [] (m_data (x_m t))) (x_handler t) (x_chandler t)))
  | _, _ => None
  end.
Definition ex_boot : option thr :=
  match boot_data ex_sys50 no_data with
  | Some d => Some (Thr (start (Code [] (AFix 0) []) (fun _ => SNone) 0 0 [] d) VFalse VFalse)
  | None => None
  end.
Definition done (o : option xout) : option thr := match o with Some (XDone _ t) => Some t | _ => None end.
Definition ex_ready : option thr := done (ex_top ex_c_install (done (ex_top ex_install ex_boot 100)) 100).
Definition result (o : option xout) : option rval := match o with Some (XDone r _) => Some r | _ => None end.
Definition seen (o : option xout) : option (rval * option (list val) * nat) :=
  match o with Some (XNext t) => Some (m_cp (x_m t), frame_args (x_m t), List.length (m_cc (x_m t))) | _ => None end.

(** Before: nothing is installed, the process ends.  After: the handler (error, object 1)
    is called with 9, returns to the caller, which returns 5; the error of C code comes to a
    call of error with #f, the message and 3. *)
Example C50_example :
  ex_top ex_raise ex_boot 100 = Some XShutdown /\
  (exists t, ex_ready = Some t /\ x_handler t = VPtr 1 /\ procedure (m_data (x_m t)) (VPtr 1) /\ procedure (m_data (x_m t)) (x_chandler t)) /\
  seen (ex_top ex_raise ex_ready 27) = Some (RV (VPtr 1), Some [VFix 9], 1) /\
  seen (ex_top ex_nope ex_ready 45) = Some (RV (VPtr 1), Some [VFalse; VPtr 8; VFix 3], 1) /\
  result (ex_top ex_raise ex_ready 100) = Some (RV (VFix 5)) /\
  result (ex_top ex_nope ex_ready 100) = Some (RV (VFix 6)) /\
  ex_top (EVar (Id "nope")) ex_ready 100 = Some XShutdown.
Proof.
  split; [vm_compute; reflexivity|]. split; [|repeat split; vm_compute; reflexivity].
  destruct ex_ready as [t|] eqn:E; [|vm_compute in E; discriminate]. exists t. split; auto. vm_compute in E. injection E as <-. vm_compute. repeat split; discriminate.
Qed.

(** The hypotheses of [C50_program_error_partial] are met by that program. *)
Definition s50 : store := snd (new_proc (PClo [c_handler] []) (boot_store ex_sys50 no_store)).
Example C50_program_met :
  exists c d s', compile_top ex_nope = Some c /\ wf false true ex_nope = true /\ drel s50 d /\ 0 < List.length (d_envs d) /\
    eval no_prim true [] s50 ex_nope (RErr (ErrInit (Id "nope"))) s' /\ proc_at (VPtr 5) (procs_of s') = Some (PClo [c_handler] []) /\
    glob_ref (Id "apply") (glob_of s') = Some (VPtr 2) /\ proc_at (VPtr 2) (procs_of s') = Some PApply /\
    glob_ref (Id "error") (glob_of s') = Some (VPtr 1) /\ proc_at (VPtr 1) (procs_of s') <> None.
Proof.
  assert (C : exists c, compile_top ex_nope = Some c) by (eexists; vm_compute; reflexivity). destruct C as [c C].
  assert (C1 : exists c, compile_top (ELam (fst c_handler) (snd c_handler)) = Some c) by (eexists; vm_compute; reflexivity). destruct C1 as [c1 C1].
  assert (B : exists d0, boot_data ex_sys50 no_data = Some d0) by (eexists; vm_compute; reflexivity). destruct B as [d0 B].
  destruct (boot_rel ex_sys50 no_store no_data d0) as [D0 N0]; [repeat constructor|discriminate|exact B|].
  assert (L0 : 0 < List.length (d_envs d0)) by (destruct (d_envs d0); [congruence|simpl; lia]).
  assert (EV : eval no_prim true [] (boot_store ex_sys50 no_store) (ELam (fst c_handler) (snd c_handler)) (RVals [VPtr 5]) s50) by (constructor; reflexivity).
  destruct (top_run no_prim _ c1 _ d0 _ _ (fun _ => SNone) 0 0 [] C1 eq_refl EV D0 L0) as [m [r [_ [_ [_ [D G]]]]]].
  assert (EN : exists s', eval no_prim true [] s50 ex_nope (RErr (ErrInit (Id "nope"))) s' /\ procs_of s' = (6, PClo [(Formals [idx] None, [EVar (Id "nope")])] []) :: procs_of s50 /\ glob_of s' = glob_of s50).
  { eexists. split; [|split; [|]]; cycle 1. 3:{
      apply EvBegin. eapply EsErr. eapply EvApp; [constructor; constructor; reflexivity|eapply EaCons; [constructor; constructor|apply EaNil]|].
      eapply ApClo; [reflexivity|reflexivity|reflexivity|]. constructor. apply EvGlobalInit; [reflexivity|left; reflexivity]. }
    all: reflexivity. }
  destruct EN as [s' [EN [EP EG]]]. exists c, (m_data m), s'. rewrite EP, EG. split; [exact C|]. split; [reflexivity|]. split; [exact D|]. split; [destruct G; lia|].
  split; [exact EN|]. repeat split; vm_compute; discriminate || reflexivity.
Qed.
(** The numbers of the handler primitives are apart from the others. *)
Example C50_apart : forall p vs h, p = 5%N \/ p = 6%N \/ p = 7%N -> no_prim p vs h = None.
Proof. reflexivity. Qed.
Print Assumptions C50_raise_calls_handler.
Print Assumptions C50_raise_without_handler.
Print Assumptions C50_handler_installed.
Print Assumptions C50_c_error_calls_handler_partial.
Print Assumptions C50_c_error_becomes_error_partial.
Print Assumptions C50_program_error_partial.
Print Assumptions C50_top_level_refuted.
