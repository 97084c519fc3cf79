(** The simulation between the meaning of expressions (Sem.v) and the virtual
    machine (Vm.v) on compiled code: definitions and lemmas. *)
From Coq Require Import ZArith NArith Bool Ascii String List Arith Lia.
From Verif Require Import Base Heap HeapM Ast FreeVars Code CodeProofs Compile CompRel CompProofs SlotProofs Sem Vm.
Import ListNotations.
Local Open Scope list_scope.

Notation lgth := (@List.length _).

(** ** Well-placed expressions

    [inp]: inside of a procedure; [clean]: the current frame holds no argument
    yet.  A definition occurs outside of procedures only; mv-values, which clears
    the frame, does not occur where arguments have already been pushed. *)
Fixpoint wf (inp clean : bool) (e : expr) : bool :=
  match e with
  | EConst _ | EUnbound | EVar _ => true
  | EDefine _ e => negb inp && wf inp clean e
  | ESet _ e => wf inp clean e
  | ELam _ body => forallb (wf true true) body
  | ECase cls => forallb (fun c => forallb (wf true true) (snd c)) cls
  | EBegin es => forallb (wf inp clean) es
  | EIf a b c => wf inp clean a && wf inp clean b && wf inp clean c
  | EApp f es => wf inp true f && forallb (wf inp false) es
  | EMvCall p c => wf inp true p && wf inp false c
  | EMvLet e _ b => wf inp clean e && wf inp clean b
  | EMvValues es => clean && forallb (wf inp false) es
  | ELet _ _ | ELetrec _ _ | EValues _ | ECwv _ _ => false
  end.
Definition wf_clauses (cls : list clause) : bool := forallb (fun c => forallb (wf true true) (snd c)) cls.

Lemma wf_no_define e : forall clean, wf true clean e = true -> no_define e = true.
Proof.
  assert (FB : forall (es : list expr) cl, Forall (fun e => forall clean, wf true clean e = true -> no_define e = true) es ->
               forallb (wf true cl) es = true -> forallb no_define es = true).
  { induction es as [|x r IH]; simpl; auto. intros cl F W. inversion F; subst. apply andb_true_iff in W. destruct W.
    apply andb_true_iff. eauto. }
  induction e using expr_ind'; intros clean W; simpl in *; auto; try discriminate;
    repeat match goal with H : _ && _ = true |- _ => apply andb_true_iff in H; destruct H end;
    repeat (apply andb_true_iff; split); eauto.
  revert H W. induction cls as [|[fm b] r IH]; simpl; auto. intros F W. inversion F; subst. apply andb_true_iff in W. destruct W.
  apply andb_true_iff. split; eauto.
Qed.

(** ** Placement of items in code *)
Record placed (c : code) (T : list code) (P : list sitem) : Prop := Placed {
  pl_nodup : NoDup (labs P);
  pl_fetch : forall pre i post, P = pre ++ Ins i :: post ->
    exists i', nth_error (instrs_of c) (ninstr pre) = Some i' /\ retarget (labpos 0 P) (template T) i = Some i' }.

Definition here (P : list sitem) (pc : nat) (its : list sitem) : Prop :=
  exists pre post, P = pre ++ its ++ post /\ ninstr pre = pc.

Lemma here_app P pc a b : here P pc (a ++ b) -> here P pc a /\ here P (pc + ninstr a) b.
Proof.
  intros [pre [post [E N]]]. split.
  - exists pre, (b ++ post). rewrite E, <- app_assoc. auto.
  - exists (pre ++ a), post. rewrite E, <- !app_assoc. split; auto. rewrite ninstr_app. lia.
Qed.
Lemma here_ins P pc i r : here P pc (Ins i :: r) -> here P (S pc) r.
Proof. intros H. apply (here_app P pc [Ins i] r) in H. destruct H as [_ H]. rewrite Nat.add_comm in H. exact H. Qed.
Lemma here_lab P pc l r : here P pc (Lab l :: r) -> here P pc r.
Proof. intros H. apply (here_app P pc [Lab l] r) in H. destruct H as [_ H]. rewrite Nat.add_comm in H. exact H. Qed.
Lemma here_labpos c T P pc l r : placed c T P -> here P pc (Lab l :: r) -> labpos 0 P l = Some pc.
Proof.
  intros [ND _] [pre [post [E N]]]. subst P. rewrite labs_app in ND. simpl in ND. simpl app. rewrite labpos_app; [simpl; congruence|].
  intros I. apply NoDup_remove_2 in ND. apply ND. apply in_app_iff. auto.
Qed.
Lemma here_fetch c T P pc i r : placed c T P -> here P pc (Ins i :: r) ->
  exists i', nth_error (instrs_of c) pc = Some i' /\ retarget (labpos 0 P) (template T) i = Some i'.
Proof. intros [_ F] [pre [post [E N]]]. subst pc. eapply F. rewrite E. reflexivity. Qed.
Lemma here_plain c T P pc i i' r : placed c T P -> here P pc (Ins i :: r) ->
  retarget (labpos 0 P) (template T) i = Some i' -> nth_error (instrs_of c) pc = Some i'.
Proof. intros PL H E. destruct (here_fetch _ _ _ _ _ _ PL H) as [j [N E']]. congruence. Qed.

(** ** The relation between stores and machine data *)

(** The cell of variable [x] under environment [r]. *)
Definition cref_ok (x : ident) (r : lenv) (cr : cref) (d : data) : Prop :=
  match lookup_env x r with
  | Some l => cr = CL l /\ nth_error (map fst (d_cells d)) l = Some x
  | None => cr = CG x /\ glob_ref x (d_glob d) <> None
  end.

(** [c] is the code of procedure expression [e] with clauses [cls]. *)
Definition compiled (e : expr) (cls : list clause) (c : code) : Prop :=
  exists bounds s0 its l ar s1 its' reloc,
    proc_of e = Some (cls, bounds) /\
    cclauses cls bounds (free_vars e) None ANull s0 its (Some l) ar s1 /\
    resolve_refs (tmpls s1) (its ++ [Lab l; ins Ido_arity_error]) = Some (its', reloc) /\
    write_code its' reloc ar = Some c.

Definition prel (p : sproc) (k : mclo) (d : data) : Prop :=
  match p with
  | PClo cls r =>
      exists e, compiled e cls (c_code k) /\ wf_clauses cls = true /\
        Forall2 (fun x o => exists cr, o = Some cr /\ cref_ok x r cr d) (free_vars e) (c_free k)
  | PPrim p n => prim_code p n = Some (c_code k)
  | PValues => values_code = Some (c_code k)
  | PApply => apply_code = Some (c_code k)
  | PIdentity => identity_code = Some (c_code k)
  | PVoid => void_code = Some (c_code k)
  | PRaise => raise_code = Some (c_code k)
  end.

Definition grel (gs gm : globals) : Prop :=
  forall x, match glob_ref x gs with
            | Some v => glob_ref x gm = Some v
            | None => glob_ref x gm = None \/ glob_ref x gm = Some VUnbound
            end.

Definition procs_rel (ps : procs) (ks : list (nat * mclo)) (d : data) : Prop :=
  Forall2 (fun p k => fst p = fst k /\ prel (snd p) (snd k) d) ps ks.

Record drel (s : store) (d : data) : Prop := Drel {
  dr_heap : heap_of s = d_heap d;
  dr_cells : cells_of s = map snd (d_cells d);
  dr_glob : grel (glob_of s) (d_glob d);
  dr_procs : procs_rel (procs_of s) (d_clos d) d }.

(** Names of cells and global entries are never lost. *)
Record grows (d d' : data) : Prop := Grows {
  gr_cells : forall l x, nth_error (map fst (d_cells d)) l = Some x -> nth_error (map fst (d_cells d')) l = Some x;
  gr_glob : forall x, glob_ref x (d_glob d) <> None -> glob_ref x (d_glob d') <> None;
  gr_envs : List.length (d_envs d) <= List.length (d_envs d') }.

Lemma grows_refl d : grows d d.
Proof. constructor; auto. Qed.
Lemma grows_trans a b c : grows a b -> grows b c -> grows a c.
Proof. intros [A1 A2 A3] [B1 B2 B3]. constructor; auto. lia. Qed.
Lemma cref_grows x r cr d d' : grows d d' -> cref_ok x r cr d -> cref_ok x r cr d'.
Proof. intros [G1 G2 _]. unfold cref_ok. destruct (lookup_env x r); intros [A B]; split; auto. Qed.
Lemma Forall2_imp {A B} (R R' : A -> B -> Prop) l l' : (forall a b, R a b -> R' a b) -> Forall2 R l l' -> Forall2 R' l l'.
Proof. intros H. induction 1; constructor; auto. Qed.
Lemma prel_grows p k d d' : grows d d' -> prel p k d -> prel p k d'.
Proof.
  intros G. destruct p; simpl; auto. intros [e [C [W F]]]. exists e. split; auto. split; auto.
  eapply Forall2_imp; [|exact F]. simpl. intros x o [cr [-> H]]. exists cr. split; auto. eapply cref_grows; eauto.
Qed.
Lemma procs_grows ps ks d d' : grows d d' -> procs_rel ps ks d -> procs_rel ps ks d'.
Proof. intros G. apply Forall2_imp. intros p k [E R]. split; auto. eapply prel_grows; eauto. Qed.

(** Data that differ in the run-time environments only. *)
Lemma drel_envs s d envs : drel s d -> List.length (d_envs d) <= List.length envs -> drel s (with_envs d envs) /\ grows d (with_envs d envs).
Proof.
  intros [H1 H2 H3 H4] L. assert (G : grows d (with_envs d envs)) by (constructor; auto). split; [|exact G].
  constructor; auto.
Qed.

Lemma proc_rel_at s d f : drel s d ->
  match proc_at f (procs_of s) with
  | Some p => exists k, clo_at (RV f) d = Some k /\ prel p k d
  | None => clo_at (RV f) d = None
  end.
Proof.
  intros [_ _ _ H]. unfold proc_at, clo_at. destruct f; auto. unfold procs_rel in H.
  revert H. generalize (d_clos d) as ks. generalize (procs_of s) as ps.
  induction ps as [|[a p] ps IH]; intros ks H; inversion H as [|? [b k] ? ks' [E R] H']; subst; simpl; auto.
  simpl in E. subst b. destruct (Nat.eqb a l); eauto. apply IH. auto.
Qed.

(** ** Environments *)
Definition env_ok (top : bool) (sc : scope) (r : lenv) (sl : list (option cref)) (d : data) : Prop :=
  (forall x i, scope_ref sc x = Some i -> exists cr, nth_error sl i = Some (Some cr) /\ cref_ok x r cr d) /\
  (top = true -> forall x, scope_ref sc x = None <-> lookup_env x r = None).

Lemma scope_ref_cons x y sc : scope_ref (y :: sc) x = if ident_eqb y x then Some (List.length sc) else scope_ref sc x.
Proof. unfold scope_ref. simpl. destruct (ident_eqb y x); auto. simpl. f_equal. lia. Qed.
Lemma scope_ref_In sc x : In x sc -> scope_ref sc x <> None.
Proof.
  induction sc as [|y r IH]; [intros []|]. rewrite scope_ref_cons. destruct (ident_eqb_spec y x); [discriminate|].
  intros [->|I]; [congruence|auto].
Qed.
Lemma scope_ref_notIn sc x : ~ In x sc -> scope_ref sc x = None.
Proof.
  induction sc as [|y r IH]; intros N; [reflexivity|]. rewrite scope_ref_cons. destruct (ident_eqb_spec y x) as [->|D].
  - destruct N. left. auto.
  - apply IH. intros I. apply N. right. auto.
Qed.

Lemma env_ok_keep top sc r sl sl' d d' :
  env_ok top sc r sl d -> grows d d' -> (forall i, i < List.length sc -> nth_error sl' i = nth_error sl i) ->
  env_ok top sc r sl' d'.
Proof.
  intros [E1 E2] G K. split; auto. intros x i H. destruct (E1 x i H) as [cr [N C]].
  exists cr. rewrite K by (eapply scope_ref_lt; eauto). split; auto. eapply cref_grows; eauto.
Qed.

(** ** What is kept *)

(** [n] slots of the current environment, the stack up to [top], all other
    environments. *)
Record keeps (n hi : nat) (m m' : mst) : Prop := Keeps {
  kp_stk : forall i, i <= hi -> m_stk m' i = m_stk m i;
  kp_envs : forall j, j < List.length (d_envs (m_data m)) -> j <> m_env m ->
            nth_error (d_envs (m_data m')) j = nth_error (d_envs (m_data m)) j;
  kp_own : forall sl, nth_error (d_envs (m_data m)) (m_env m) = Some sl ->
           exists sl', nth_error (d_envs (m_data m')) (m_env m) = Some sl' /\ List.length sl' = List.length sl /\
                       forall i, i < n -> nth_error sl' i = nth_error sl i;
  kp_grow : grows (m_data m) (m_data m') }.

Lemma keeps_trans n n' hi hi' m m' m'' :
  keeps n hi m m' -> keeps n' hi' m' m'' -> n <= n' -> hi <= hi' -> m_env m' = m_env m -> keeps n hi m m''.
Proof.
  intros [A1 A2 A3 A4] [B1 B2 B3 B4] LN LH E. constructor.
  - intros i L. rewrite B1 by lia. auto.
  - intros j L N. assert (L2 := gr_envs _ _ A4). rewrite B2; [auto|lia|congruence].
  - intros sl H. destruct (A3 _ H) as [sl' [H1 [H2 H3]]]. rewrite E in B3. destruct (B3 _ H1) as [sl2 [H4 [H5 H6]]].
    exists sl2. split; auto. split; [congruence|]. intros i L. rewrite H6 by lia. auto.
  - eapply grows_trans; eauto.
Qed.
Lemma keeps_weak n n' hi hi' m m' : keeps n' hi' m m' -> n <= n' -> hi <= hi' -> keeps n hi m m'.
Proof.
  intros [A1 A2 A3 A4] LN LH. constructor; auto.
  - intros i L. apply A1. lia.
  - intros sl H. destruct (A3 _ H) as [sl' [H1 [H2 H3]]]. exists sl'. split; auto. split; auto. intros i L. apply H3. lia.
Qed.
(** The part of it that concerns data. *)
Record dkeeps (n e : nat) (d d' : data) : Prop := Dkeeps {
  dk_envs : forall j, j < List.length (d_envs d) -> j <> e -> nth_error (d_envs d') j = nth_error (d_envs d) j;
  dk_own : forall sl, nth_error (d_envs d) e = Some sl ->
           exists sl', nth_error (d_envs d') e = Some sl' /\ List.length sl' = List.length sl /\
                       forall i, i < n -> nth_error sl' i = nth_error sl i;
  dk_grow : grows d d' }.
Lemma keeps_of n hi m m' :
  (forall i, i <= hi -> m_stk m' i = m_stk m i) -> dkeeps n (m_env m) (m_data m) (m_data m') -> keeps n hi m m'.
Proof. intros S [A B C]. constructor; auto. Qed.
Lemma dkeeps_trans n n' e d d' d'' : dkeeps n e d d' -> dkeeps n' e d' d'' -> n <= n' -> dkeeps n e d d''.
Proof.
  intros [A2 A3 A4] [B2 B3 B4] LN. constructor.
  - intros j L N. assert (L2 := gr_envs _ _ A4). rewrite B2; [auto|lia|congruence].
  - intros sl H. destruct (A3 _ H) as [sl' [H1 [H2 H3]]]. destruct (B3 _ H1) as [sl2 [H4 [H5 H6]]].
    exists sl2. split; auto. split; [congruence|]. intros i L. rewrite H6 by lia. auto.
  - eapply grows_trans; eauto.
Qed.
Lemma dkeeps_same n e d d' : d_envs d' = d_envs d -> grows d d' -> dkeeps n e d d'.
Proof.
  intros E G. constructor; auto.
  - intros. rewrite E. auto.
  - intros sl H. exists sl. rewrite E. auto.
Qed.
(** Steps that only touch the registers, the stack above and the data below. *)
Lemma keeps_simple n hi m m' :
  (forall i, i <= hi -> m_stk m' i = m_stk m i) -> d_envs (m_data m') = d_envs (m_data m) ->
  grows (m_data m) (m_data m') -> keeps n hi m m'.
Proof.
  intros S E G. constructor; auto.
  - intros. rewrite E. auto.
  - intros sl H. exists sl. rewrite E. auto.
Qed.

(** ** Results *)
Definition res_ok (vs : list val) (m : mst) : Prop :=
  match vs with
  | [v] => m_r0 m = RV v
  | _ => m_r0 m = RValues /\ m_vals m = vs /\ m_vc m = List.length vs
  end.
Lemma res_vals vs m : res_ok vs m -> result_vals m = Some vs.
Proof.
  unfold res_ok, result_vals. destruct vs as [|v [|w r]].
  - intros [-> [-> ->]]. reflexivity.
  - intros ->. reflexivity.
  - intros [-> [-> ->]]. rewrite Nat.eqb_refl. reflexivity.
Qed.

Section Sim.
  Variable prim : N -> list val -> heap -> option presult.
  Notation step := (step prim).
  Notation exec := (exec prim).
  Notation reaches := (reaches prim).

  Lemma step_exec m i : nth_error (instrs_of (m_code m)) (m_pc m) = Some i -> step m = exec i m.
  Proof. intros E. unfold Vm.step. rewrite E. reflexivity. Qed.

  Lemma one m i m1 : nth_error (instrs_of (m_code m)) (m_pc m) = Some i -> exec i m = Next m1 -> reaches m m1.
  Proof. intros E X. apply reaches_one. rewrite (step_exec _ _ E). exact X. Qed.

  (** Arrival at the end of the items of an expression. *)
  Record arr (n : nat) (clean : bool) (its : list sitem) (m : mst) (vs : list val) (s' : store) (m' : mst) : Prop := Arr {
    ar_run : reaches m m';
    ar_code : m_code m' = m_code m;
    ar_pc : m_pc m' = m_pc m + ninstr its;
    ar_sfp : m_sfp m' = m_sfp m;
    ar_cc : m_cc m' = m_cc m;
    ar_env : m_env m' = m_env m;
    ar_ac : m_ac m' = m_ac m;
    ar_cp : clean = false -> m_cp m' = m_cp m;
    ar_res : res_ok vs m';
    ar_rel : drel s' (m_data m');
    ar_keep : keeps n (m_sfp m + m_ac m) m m' }.

  (** Arrival at a return with the frame and the continuation of the start. *)
  Record ret (m : mst) (vs : list val) (s' : store) (m' : mst) : Prop := Ret {
    rt_run : reaches m m';
    rt_at : nth_error (instrs_of (m_code m')) (m_pc m') = Some Iret;
    rt_sfp : m_sfp m' = m_sfp m;
    rt_cc : m_cc m' = m_cc m;
    rt_res : res_ok vs m';
    rt_rel : drel s' (m_data m');
    rt_stk : forall i, i <= m_sfp m -> m_stk m' i = m_stk m i;
    rt_envs : forall j, j < List.length (d_envs (m_data m)) -> j <> m_env m ->
              nth_error (d_envs (m_data m')) j = nth_error (d_envs (m_data m)) j;
    rt_grow : grows (m_data m) (m_data m') }.

  Definition fails (m : mst) (y : err) (s' : store) : Prop :=
    exists m2 m3, reaches m m2 /\ step m2 = Fail y m3 /\ drel s' (m_data m3).

  Lemma fails_after m m1 y s' : reaches m m1 -> fails m1 y s' -> fails m y s'.
  Proof. intros R [m2 [m3 [R2 X]]]. exists m2, m3. split; auto. eapply reaches_trans; eauto. Qed.

  (** The context in which an expression runs. *)
  Record ctx (top clean : bool) (sc : scope) (n : nat) (r : lenv) (s : store) (m : mst) : Prop := Ctx {
    cx_env : exists sl, nth_error (d_envs (m_data m)) (m_env m) = Some sl /\ List.length sc + n <= List.length sl /\
                        env_ok top sc r sl (m_data m);
    cx_rel : drel s (m_data m);
    cx_clean : clean = true -> m_ac m = 0 }.

  Lemma ctx_le top clean clean' sc n n' r s m : ctx top clean sc n r s m -> n' <= n -> (clean' = true -> clean = true \/ m_ac m = 0) ->
    ctx top clean' sc n' r s m.
  Proof.
    intros [[sl [E1 [E2 E3]]] R C] L CL. constructor; auto.
    - exists sl. split; auto. split; auto. lia.
    - intros H. destruct (CL H); auto.
  Qed.
  (** A context is kept by what keeps its slots. *)
  Lemma ctx_keep top clean clean' sc n r s s' m m' hi :
    ctx top clean sc n r s m -> keeps (List.length sc) hi m m' -> m_env m' = m_env m -> drel s' (m_data m') ->
    (clean' = true -> m_ac m' = 0) -> ctx top clean' sc n r s' m'.
  Proof.
    intros [[sl [E1 [E2 E3]]] R C] [_ _ K G] E D CL. constructor; auto.
    destruct (K _ E1) as [sl' [K1 [K2 K3]]]. exists sl'. rewrite E. split; auto. split; [lia|].
    eapply env_ok_keep; eauto.
  Qed.
  Lemma ctx_arr top clean sc n r s s' its m m' vs :
    ctx top clean sc n r s m -> arr (List.length sc) clean its m vs s' m' -> ctx top clean sc n r s' m'.
  Proof.
    intros C A. eapply ctx_keep; [exact C|exact (ar_keep _ _ _ _ _ _ _ A)|apply A|apply A|].
    intros H. rewrite (ar_ac _ _ _ _ _ _ _ A). apply (cx_clean _ _ _ _ _ _ _ C). auto.
  Qed.

  Definition closed (top : bool) (sc : scope) (e : expr) : Prop := top = false -> incl (free_vars e) sc.

  (** ** What is to be shown *)
  Definition done (tl : bool) (n : nat) (clean : bool) (its : list sitem) (m : mst) (x : res) (s' : store) : Prop :=
    match x with
    | RVals vs => if tl then exists m', ret m vs s' m' else exists m', arr n clean its m vs s' m'
    | RErr y => fails m y s'
    end.

  Definition sim_eval (top : bool) (r : lenv) (s : store) (e : expr) (x : res) (s' : store) : Prop :=
    forall T P sc tl clean cs its cs' m,
      placed (m_code m) T P -> comp e sc tl cs its cs' -> (exists ext, T = ext ++ tmpls cs') -> here P (m_pc m) its ->
      wf (negb top) clean e = true -> (tl = true -> clean = true) -> closed top sc e ->
      ctx top clean sc (List.length (bound_vars e)) r s m ->
      done tl (List.length sc) clean its m x s'.

  Definition sim_seq (top : bool) (r : lenv) (s : store) (es : list expr) (x : res) (s' : store) : Prop :=
    forall T P sc tl clean cs its cs' m,
      placed (m_code m) T P -> cseq es sc tl cs its cs' -> (exists ext, T = ext ++ tmpls cs') -> here P (m_pc m) its ->
      forallb (wf (negb top) clean) es = true -> (tl = true -> clean = true) -> (forall e, In e es -> closed top sc e) ->
      ctx top clean sc (List.length (bound_vars_seq es)) r s m ->
      done tl (List.length sc) clean its m x s'.

  Definition sim_eval1 (top : bool) (r : lenv) (s : store) (e : expr) (x : val + err) (s' : store) : Prop :=
    forall T P sc clean cs its cs' m,
      placed (m_code m) T P -> comp e sc false cs its cs' -> (exists ext, T = ext ++ tmpls cs') -> here P (m_pc m) its ->
      wf (negb top) clean e = true -> closed top sc e ->
      ctx top clean sc (List.length (bound_vars e)) r s m ->
      match x with
      | inl v => exists m', arr (List.length sc) clean its m [v] s' m'
      | inr y => fails m y s' \/
                 exists vs m', arr (List.length sc) clean its m vs s' m' /\ List.length vs <> 1 /\ y = ErrResults 1 (List.length vs)
      end.

  (** Arguments are pushed on the frame. *)
  Record pushed (n : nat) (its : list sitem) (m : mst) (vs : list val) (s' : store) (m' : mst) : Prop := Pushed {
    pu_run : reaches m m';
    pu_code : m_code m' = m_code m;
    pu_pc : m_pc m' = m_pc m + ninstr its;
    pu_sfp : m_sfp m' = m_sfp m;
    pu_cc : m_cc m' = m_cc m;
    pu_env : m_env m' = m_env m;
    pu_ac : m_ac m' = m_ac m + List.length vs;
    pu_cp : m_cp m' = m_cp m;
    pu_args : forall j v, nth_error vs j = Some v -> m_stk m' (S (m_sfp m) + m_ac m + j) = SVal v;
    pu_rel : drel s' (m_data m');
    pu_keep : keeps n (m_sfp m + m_ac m) m m' }.

  Definition sim_args (top : bool) (r : lenv) (s : store) (es : list expr) (x : list val + err) (s' : store) : Prop :=
    forall T P sc cs its cs' m,
      placed (m_code m) T P -> cargs es sc cs its cs' -> (exists ext, T = ext ++ tmpls cs') -> here P (m_pc m) its ->
      forallb (wf (negb top) false) es = true -> (forall e, In e es -> closed top sc e) ->
      ctx top false sc (List.length (bound_vars_seq es)) r s m ->
      match x with
      | inl vs => exists m', pushed (List.length sc) its m vs s' m'
      | inr y => fails m y s'
      end.

  (** Calls: from a state whose frame holds the arguments. *)
  Record called (m : mst) (ws : list val) (s' : store) (m1 m' : mst) : Prop := Called {
    cl_app : do_application m = Next m1;
    cl_run : reaches m1 m';
    cl_at : nth_error (instrs_of (m_code m')) (m_pc m') = Some Iret;
    cl_sfp : m_sfp m' = m_sfp m;
    cl_cc : m_cc m' = m_cc m;
    cl_res : res_ok ws m';
    cl_rel : drel s' (m_data m');
    cl_stk : forall i, i <= m_sfp m -> m_stk m' i = m_stk m i;
    cl_envs : forall j, j < List.length (d_envs (m_data m)) ->
              nth_error (d_envs (m_data m')) j = nth_error (d_envs (m_data m)) j;
    cl_grow : grows (m_data m) (m_data m') }.
  Definition call_fails (m : mst) (y : err) (s' : store) : Prop :=
    exists m3, drel s' (m_data m3) /\
      (do_application m = Fail y m3 \/ exists m1 m2, do_application m = Next m1 /\ reaches m1 m2 /\ step m2 = Fail y m3).

  Definition sim_apply (s : store) (f : val) (vs : list val) (x : res) (s' : store) : Prop :=
    forall m, m_cp m = RV f -> frame_args m = Some vs -> drel s (m_data m) ->
      match x with
      | RVals ws => exists m1 m', called m ws s' m1 m'
      | RErr y => call_fails m y s'
      end.

  (** ** Returning *)
  Lemma done_ret T P n clean its tl m vs s' m' :
    placed (m_code m) T P -> here P (m_pc m) (with_tail_ret its tl) ->
    arr n clean its m vs s' m' -> done tl n clean (with_tail_ret its tl) m (RVals vs) s'.
  Proof.
    intros PL H A. destruct tl; simpl in *; [|exists m'; exact A].
    apply here_app in H. destruct H as [_ H]. destruct A as [A1 A2 A3 A4 A5 A6 A7 A8 A9 A10 A11].
    exists m'. constructor; auto.
    - rewrite A2, A3. eapply here_plain; eauto.
    - intros i L. apply (kp_stk _ _ _ _ A11). lia.
    - apply A11.
    - apply A11.
  Qed.
  Lemma here_tail P pc its tl : here P pc (with_tail_ret its tl) -> here P pc its.
  Proof. intros H. destruct tl; auto. apply here_app in H. apply H. Qed.
End Sim.
