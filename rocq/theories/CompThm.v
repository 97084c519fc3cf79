(** C28, C29, C30, C35: static properties of compiled code
    (src/core/c/jitcompile.c, jitanalyze.c, jitcommon.c, jit.c). *)
From Coq Require Import ZArith NArith Bool Ascii String List Arith Lia.
From Verif Require Import Base Heap Ast FreeVars Code CodeProofs Compile CompRel CompProofs SlotProofs Sem.
Import ListNotations.
Local Open Scope list_scope.

(** ** What compiles *)

(** The core forms with a proper list of variables in mv-let and at least one
    clause in case-lambda. *)
Fixpoint compilable (e : expr) : bool :=
  match e with
  | EConst _ | EUnbound | EVar _ => true
  | EDefine _ e | ESet _ e => compilable e
  | ELam _ body => forallb compilable body
  | ECase cls => match cls with [] => false | _ => forallb (fun c => forallb compilable (snd c)) cls end
  | EBegin es | EMvValues es => forallb compilable es
  | EIf a b c => compilable a && compilable b && compilable c
  | EApp f es => compilable f && forallb compilable es
  | EMvCall p c => compilable p && compilable c
  | EMvLet e fm b => compilable e && compilable b && match rest fm with None => true | Some _ => false end
  | ELet _ _ | ELetrec _ _ | EValues _ | ECwv _ _ => false
  end.

Fixpoint arity_wf (a : arity) : bool :=
  match a with
  | ANull | AFix _ => true
  | AFalse => false
  | APair _ AFalse => true
  | APair _ b => arity_wf b
  end.
Lemma update_arity_total n restp a : arity_wf a = true -> exists a', update_arity a n restp = Some a' /\ arity_wf a' = true.
Proof.
  induction a as [|m| |m b IH]; simpl; intros W; try discriminate.
  - eexists. split; [reflexivity|]. destruct restp; reflexivity.
  - destruct (m <? n); [|destruct (n =? m)]; eexists; (split; [reflexivity|]); destruct restp; reflexivity.
  - destruct (m <? n); [|destruct (n =? m)].
    + destruct b as [|k| |k b].
      * destruct (IH eq_refl) as [a' [E W']]. rewrite E. simpl. eexists. split; [reflexivity|]. simpl. destruct a'; auto.
      * destruct (IH eq_refl) as [a' [E W']]. rewrite E. simpl. eexists. split; [reflexivity|]. simpl. destruct a'; auto.
      * eexists. split; [reflexivity|]. reflexivity.
      * destruct (IH W) as [a' [E W']]. rewrite E. simpl. eexists. split; [reflexivity|]. simpl. destruct a'; auto.
    + eexists. split; [reflexivity|]. destruct restp; simpl; auto.
    + eexists. split; [reflexivity|]. destruct restp; simpl; auto.
Qed.

Definition total_at (e : expr) : Prop :=
  compilable e = true -> forall sc t s, exists its s', compile e sc t s = Some (its, s').

Lemma seq_total es : Forall total_at es -> forallb compilable es = true ->
  forall sc t s, exists its s', seq_fix es sc t s = Some (its, s').
Proof.
  induction es as [|e [|e' r] IH]; intros F W sc t s.
  - eexists _, _. reflexivity.
  - inversion F as [|? ? S1 F']; subst. simpl in W. apply andb_true_iff in W. apply S1. apply W.
  - inversion F as [|? ? S1 F']; subst. cbn [forallb] in W. apply andb_true_iff in W. destruct W as [W1 W2].
    destruct (S1 W1 sc false s) as [i1 [s1 E1]]. destruct (IH F' W2 sc t s1) as [i2 [s2 E2]].
    exists (i1 ++ i2), s2. cbn [seq_fix]. rewrite E1.
    change (match seq_fix (e' :: r) sc t s1 with
            | Some (its', s2) => Some (i1 ++ its', s2)
            | None => None
            end = Some (i1 ++ i2, s2)). rewrite E2. reflexivity.
Qed.
Lemma args_total es : Forall total_at es -> forallb compilable es = true ->
  forall sc s, exists its s', args_fix es sc s = Some (its, s').
Proof.
  induction es as [|e r IH]; intros F W sc s.
  - eexists _, _. reflexivity.
  - inversion F as [|? ? S1 F']; subst. cbn [forallb] in W. apply andb_true_iff in W. destruct W as [W1 W2].
    destruct (S1 W1 sc false s) as [i1 [s1 E1]]. destruct (IH F' W2 sc s1) as [i2 [s2 E2]].
    eexists _, _. cbn [args_fix]. rewrite E1, E2. reflexivity.
Qed.
Lemma clauses_total cls : Forall (fun c => Forall total_at (snd c)) cls ->
  forallb (fun c => forallb compilable (snd c)) cls = true ->
  forall bounds fvs label ar s, arity_wf ar = true ->
    exists its label' ar' s', clauses_fix cls bounds fvs label ar s = Some (its, label', ar', s') /\
      (cls <> [] \/ label <> None -> label' <> None).
Proof.
  induction cls as [|[fm body] r IH]; intros F W bounds fvs label ar s WA.
  - exists [], label, ar, s. split; [reflexivity|]. intros [N|N]; congruence.
  - inversion F as [|? ? S1 F']; subst. cbn [forallb snd] in W, S1. apply andb_true_iff in W. destruct W as [W1 W2].
    destruct (update_arity_total (formals_len fm) (has_rest fm) _ WA) as [ar1 [EA WA1]].
    cbn [clauses_fix]. cbv zeta. rewrite EA. destruct (bind_formals fm (fvs_scope fvs)) as [binds sc1].
    destruct (seq_total _ S1 W1 sc1 true (CSt (S (labels s)) (tmpls s))) as [i1 [s1 E1]]. rewrite E1.
    destruct (IH F' W2 (tl bounds) fvs (Some (labels s)) ar1 s1 WA1) as [i2 [l2 [a2 [s2 [E2 L2]]]]]. rewrite E2.
    eexists _, _, _, _. split; [reflexivity|]. intros _. apply L2. right. discriminate.
Qed.
Lemma proc_total e cls bounds : proc_of e = Some (cls, bounds) -> cls <> [] ->
  Forall (fun c => Forall total_at (snd c)) cls -> forallb (fun c => forallb compilable (snd c)) cls = true ->
  forall sc t s, exists its s', compile e sc t s = Some (its, s').
Proof.
  intros PO NE F W sc t s. rewrite (compile_proc _ _ _ _ _ _ PO). unfold proc_fix.
  destruct (clauses_total _ F W bounds (free_vars e) None ANull (CSt 0 (tmpls s)) eq_refl) as [i1 [l [ar [s1 [E1 L]]]]].
  rewrite E1. destruct l as [l|]; [|destruct L; auto].
  assert (CC : cclauses cls bounds (free_vars e) None ANull (CSt 0 (tmpls s)) i1 (Some l) ar s1).
  { eapply clauses_sound; [|exact E1]. apply Forall_forall. intros. apply Forall_forall. intros. apply compile_sound. }
  destruct (clauses_assembled _ _ _ _ _ _ _ _ NE CC) as [[ND [B EN]] RO].
  destruct (writes (tmpls s1) _ ar ND B EN RO) as [P' [reloc [c [R WR]]]]. rewrite R, WR. eexists _, _. reflexivity.
Qed.

Theorem compile_total e : total_at e.
Proof.
  induction e using expr_ind'; intros W sc t s; try (eexists _, _; reflexivity); try discriminate W.
  - cbn [compile compilable] in *. destruct (IHe W sc false s) as [i1 [s1 ->]]. eexists _, _; reflexivity.
  - cbn [compile compilable] in *. destruct (IHe W sc false s) as [i1 [s1 ->]]. eexists _, _; reflexivity.
  - eapply proc_total; [reflexivity|discriminate| |]; [constructor; auto|]. simpl. simpl in W. rewrite W. reflexivity.
  - eapply proc_total; [reflexivity| | |]; auto; destruct cls; try discriminate; auto.
  - rewrite compile_begin. apply seq_total; auto.
  - cbn [compile compilable] in *. apply andb_true_iff in W. destruct W as [W W3]. apply andb_true_iff in W. destruct W as [W1 W2].
    destruct (IHe1 W1 sc false s) as [i1 [s1 ->]]. destruct (IHe2 W2 sc t s1) as [i2 [s2 ->]]. destruct (IHe3 W3 sc t s2) as [i3 [s3 ->]].
    cbv zeta. destruct t; eexists _, _; reflexivity.
  - rewrite compile_app. cbn [compilable] in W. apply andb_true_iff in W. destruct W as [W1 W2].
    destruct (IHe W1 sc false (if t then s else CSt (S (labels s)) (tmpls s))) as [i1 [s1 ->]].
    destruct (args_total _ H W2 sc s1) as [i2 [s2 ->]]. eexists _, _; reflexivity.
  - cbn [compile compilable] in *. cbv zeta. apply andb_true_iff in W. destruct W as [W1 W2].
    destruct (IHe1 W1 sc false (if t then s else CSt (S (labels s)) (tmpls s))) as [i1 [s1 ->]].
    destruct (IHe2 W2 sc false s1) as [i2 [s2 ->]]. eexists _, _; reflexivity.
  - cbn [compile compilable] in *. apply andb_true_iff in W. destruct W as [W W3]. apply andb_true_iff in W. destruct W as [W1 W2].
    destruct (rest ids); [discriminate|]. destruct (IHe1 W1 sc false s) as [i1 [s1 ->]]. cbv zeta.
    destruct (IHe2 W2 (rev (req ids) ++ sc) t s1) as [i2 [s2 ->]]. eexists _, _; reflexivity.
  - destruct es as [|e r]; [eexists _, _; reflexivity|]. rewrite compile_mvvalues. cbn [compilable] in W.
    destruct (args_total _ H W sc s) as [i2 [s2 ->]]. eexists _, _; reflexivity.
Qed.

Theorem C28_compilation_succeeds :
  forall e, compilable e = true -> exists c, compile_top e = Some c.
Proof.
  intros e W. destruct (compile_total e W [] true (CSt 0 [])) as [its [s E]].
  destruct (top_assembled e its s (compile_sound _ _ _ _ _ _ E)) as [[ND [B EN]] RO].
  destruct (writes (tmpls s) _ (AFix 0) ND B EN RO) as [P' [reloc [c [R WR]]]].
  exists c. unfold compile_top. rewrite E. unfold top_items in *. destruct (bound_vars e); rewrite R; auto.
Qed.

(** ** C28: jumps *)

(** [jumps_ok c]: [c] comes from a list of items [P], instructions and distinct
    labels; the [k]th instruction of [P] is the [k]th of [c]; a jump to label
    [l] of [P] has become a jump to the position of the first instruction after
    [l], which is inside of [c]; the same holds for the codes of the procedures
    made. *)
Inductive jumps_ok : code -> Prop :=
| JumpsOk c (P : list (item nat)) :
    NoDup (labs P) -> List.length (instrs_of c) = ninstr P ->
    (forall pre i post, P = pre ++ Ins i :: post ->
       exists i', nth_error (instrs_of c) (ninstr pre) = Some i' /\
         (forall t, target i' = Some t ->
            exists l pre' post', target i = Some l /\ P = pre' ++ Lab l :: post' /\ t = ninstr pre' /\
                                 t < List.length (instrs_of c)) /\
         (forall c' n, i' = Imake_closure c' n -> jumps_ok c')) ->
    jumps_ok c.

Lemma built_jumps c : built c -> jumps_ok c.
Proof.
  revert c. fix IH 2. intros c H. destruct H as [T P P' reloc ar c [ND [B EN]] RO CL R W].
  destruct (written_at _ _ _ _ _ _ R W ND B EN) as [LEN [_ WR]].
  apply (JumpsOk c P ND LEN). intros pre i post E. destruct (WR _ _ _ E) as [i' [N RT]]. exists i'. split; [exact N|]. split.
  - intros t T'. assert (X := retarget_target _ _ _ _ RT). destruct (target i) as [l|] eqn:TI; [|congruence].
    destruct X as [t' [X1 X2]]. rewrite T' in X2. injection X2 as <-.
    destruct (labpos_split _ _ _ _ X1) as [p [q [EQ [-> _]]]]. exists l, p, q. split; auto. split; auto. split; auto.
    simpl. rewrite LEN. destruct EN as [i0 [r ER]]. rewrite EQ in ER.
    destruct (exists_last (l := Lab (C := nat) l :: q)) as [m [z EZ]]; [discriminate|].
    rewrite EZ in ER. rewrite app_assoc in ER. apply app_inj_tail in ER. destruct ER as [_ ->].
    rewrite EQ, EZ, !ninstr_app. simpl. lia.
  - intros c' n ->.
    assert (II : exists k, i = Imake_closure k n /\ template T k = Some c').
    { clear -RT. destruct i; simpl in RT; try (destruct (labpos _ _ _); discriminate); try discriminate.
      destruct (template T c) eqn:E; simpl in RT; [|discriminate]. injection RT as <- <-. exists c. auto. }
    destruct II as [k [-> TK]].
    destruct (CL k n) as [c2 [T2 Q]]; [rewrite E; apply in_app_iff; right; left; reflexivity|].
    rewrite TK in T2. injection T2 as <-. apply IH. exact Q.
Qed.

Theorem C28_compiled_jumps : forall e c, compile_top e = Some c -> jumps_ok c.
Proof. intros e c H. apply built_jumps. eapply top_built; eauto. Qed.

(** In particular every target is a position of the code. *)
Theorem C28_targets_in_range :
  forall e c, compile_top e = Some c ->
    forall pc i t, nth_error (instrs_of c) pc = Some i -> target i = Some t -> t < List.length (instrs_of c).
Proof.
  intros e c H pc i t N T. apply C28_compiled_jumps in H. destruct H as [c P ND LEN WR].
  assert (LT : pc < ninstr P) by (rewrite <- LEN; apply nth_error_Some; congruence).
  assert (SP : forall (its : list sitem) k, k < ninstr its -> exists p i q, its = p ++ Ins i :: q /\ ninstr p = k).
  { clear. induction its as [|[l|i] r IH]; simpl; intros k L; [lia| |].
    - destruct (IH _ L) as [p [i [q [-> N]]]]. exists (Lab l :: p), i, q. auto.
    - destruct k as [|k]; [exists [], i, r; auto|]. destruct (IH k) as [p [j [q [-> N]]]]; [lia|].
      exists (Ins i :: p), j, q. simpl. auto. }
  destruct (SP _ _ LT) as [p [j [q [EQ NP]]]]. destruct (WR _ _ _ EQ) as [j' [N' [TT _]]].
  rewrite NP, N in N'. injection N' as <-. destruct (TT _ T) as [l [p' [q' [_ [_ [_ LE]]]]]]. exact LE.
Qed.

(** The hand-written procedures of jitprims.c. *)
Theorem C28_primitives_jump :
  forall p n, exists c1 c2 c3 c4 c5,
    prim_code p n = Some c1 /\ identity_code = Some c2 /\ void_code = Some c3 /\ apply_code = Some c4 /\ values_code = Some c5 /\
    jumps_ok c1 /\ jumps_ok c2 /\ jumps_ok c3 /\ jumps_ok c4 /\ jumps_ok c5.
Proof.
  intros p n.
  assert (G : forall its ar c, written its ar = Some c -> assembled its -> refs_ok [] its ->
                               (forall k m, ~ In (Ins (Imake_closure k m)) its) -> jumps_ok c).
  { intros its ar c E A RO NC. apply built_jumps. unfold written in E.
    destruct (resolve_refs [] its) as [[P' reloc]|] eqn:R; [|discriminate].
    econstructor; eauto. intros k m I. destruct (NC _ _ I). }
  assert (D : forall (i : instr nat nat) m ar c, written (do_ret_items m i) ar = Some c -> target i = None ->
                (forall k m, i <> Imake_closure k m) -> jumps_ok c).
  { intros i m ar c E TI NC. eapply G; eauto.
    - split; [|split].
      + simpl. repeat constructor. simpl. tauto.
      + eexists _, _. reflexivity.
      + exists Ido_arity_error. eexists (firstn 5 (do_ret_items m i)). reflexivity.
    - intros j I. simpl in I. split.
      + intros l T. decompose [or] I; try discriminate; try contradiction; match goal with H : ins _ = ins _ |- _ => injection H as <- end;
          simpl in *; try congruence. injection T as <-. auto.
      + intros k w ->. decompose [or] I; try discriminate; try contradiction.
        match goal with H : ins _ = ins _ |- _ => injection H as -> end. destruct (NC _ _ eq_refl).
    - intros k w I. simpl in I. decompose [or] I; try discriminate; try contradiction.
      match goal with H : ins _ = ins _ |- _ => injection H as -> end. destruct (NC _ _ eq_refl). }
  eexists _, _, _, _, _.
  split; [reflexivity|]. split; [reflexivity|]. split; [reflexivity|]. split; [reflexivity|]. split; [reflexivity|].
  split; [|split; [|split; [|split]]].
  - eapply (D (Iccall p) n); [reflexivity|reflexivity|discriminate].
  - eapply (D (Iget_arg Rres 0) 1); [reflexivity|reflexivity|discriminate].
  - eapply (D (Iliteral VVoid) 0); [reflexivity|reflexivity|discriminate].
  - eapply (G apply_items); [reflexivity| | |].
    + split; [|split].
      * simpl. repeat constructor. simpl. tauto.
      * eexists _, _. reflexivity.
      * exists Ido_arity_error. eexists (firstn 5 apply_items). reflexivity.
    + intros j I. simpl in I. split.
      * intros l T. decompose [or] I; try discriminate; try contradiction; match goal with H : ins _ = ins _ |- _ => injection H as <- end;
          simpl in *; try congruence. injection T as <-. auto.
      * intros k w ->. decompose [or] I; try discriminate; try contradiction.
    + intros k w I. simpl in I. decompose [or] I; try discriminate; try contradiction.
  - eapply (G values_items); [reflexivity| | |].
    + split; [|split].
      * simpl. constructor.
      * eexists _, _. reflexivity.
      * exists Iret. eexists [ins Ido_values]. reflexivity.
    + intros j I. simpl in I. split.
      * intros l T. decompose [or] I; try discriminate; try contradiction; match goal with H : ins _ = ins _ |- _ => injection H as <- end;
          simpl in *; congruence.
      * intros k w ->. decompose [or] I; try discriminate; try contradiction.
    + intros k w I. simpl in I. decompose [or] I; try discriminate; try contradiction.
Qed.

(** ** C29: slots *)
Theorem C29_slots_in_frame : forall e c, compile_top e = Some c -> slots_ok 0 c.
Proof. exact top_slots. Qed.

(** ** C30: free variables *)

(** An expression without define-values: the analysis returns exactly the
    variables that occur free, each once. *)
Theorem C30_free_variables_partial :
  forall e, core e = true -> no_define e = true ->
    NoDup (free_vars e) /\ forall x, In x (free_vars e) <-> free_in x e.
Proof.
  intros e _ D. split; [apply free_vars_NoDup|]. intros x. split; [apply free_vars_sound|].
  intros. apply free_vars_complete; auto.
Qed.

(** With define-values inside a procedure the analysis never returns a variable
    that is not free, *)
Theorem C30_no_spurious_variable :
  forall e x, In x (free_vars e) -> free_in x e.
Proof. exact free_vars_sound. Qed.

(** but it misses the variables of the right-hand side that the definition
    names: in [(lambda () (define-values (x) x))] the [x] on the right is free
    and is not captured. *)
Theorem C30_define_hides_refuted :
  exists e x, core e = true /\ free_in x e /\ ~ In x (free_vars e).
Proof.
  exists (ELam (Formals [] None) [EDefine [Id "x"] (EVar (Id "x"))]), (Id "x").
  split; [reflexivity|]. split; [|simpl; tauto].
  eapply FrLam; [left; reflexivity|apply FrDefine, FrVar|]. intros [[]|H]; discriminate.
Qed.

(** ** C35: procedure-arity *)

(** The argument counts that an arity stands for ([procedure-arity?],
    prelude.min:731-752): [n] for [n], [n] or more for [(n . #f)], the counts of
    the elements for a list. *)
Fixpoint includes (a : arity) (n : nat) : Prop :=
  match a with
  | ANull | AFalse => False
  | AFix m => n = m
  | APair m AFalse => m <= n
  | APair m b => n = m \/ includes b n
  end.
(** [procedure-arity?], prelude.min:731-752: [low] is the count before. *)
Fixpoint arity_tail (low : nat) (a : arity) : Prop :=
  match a with
  | ANull | AFalse => True
  | AFix _ => False
  | APair m b => low < m /\ arity_tail m b
  end.
Definition is_arity (a : arity) : Prop :=
  match a with
  | AFix _ => True
  | APair m b => arity_tail m b
  | _ => False
  end.

(** The arity of a list of clauses, as the compiler computes it. *)
Fixpoint clauses_arity (a : arity) (cls : list clause) : option arity :=
  match cls with
  | [] => Some a
  | (fm, _) :: r => match update_arity a (formals_len fm) (has_rest fm) with
                    | Some a' => clauses_arity a' r
                    | None => None
                    end
  end.
Lemma cclauses_arity cls : forall bounds fvs label ar s its label' ar' s',
  cclauses cls bounds fvs label ar s its label' ar' s' -> clauses_arity ar cls = Some ar'.
Proof.
  induction cls as [|[fm body] r IH]; intros; inversion H; subst; simpl; auto.
  match goal with H : update_arity _ _ _ = _ |- _ => rewrite H end. eapply IH; eauto.
Qed.

(** The clauses a procedure expression has. *)
Definition clauses_of (e : expr) : option (list clause) :=
  match e with ELam fm body => Some [(fm, body)] | ECase cls => Some cls | _ => None end.

(** A clause accepts [n] arguments: exactly its parameters, or at least its
    required ones when it has a rest parameter. *)
Definition takes (c : clause) (n : nat) : Prop :=
  match rest (fst c) with
  | None => n = List.length (req (fst c))
  | Some _ => List.length (req (fst c)) <= n
  end.

Fixpoint sorted_from (low : option nat) (a : arity) : Prop :=
  let above m := match low with Some l => l < m | None => True end in
  match a with
  | ANull => True
  | AFalse => False
  | AFix m => above m
  | APair m AFalse => above m
  | APair m b => above m /\ sorted_from (Some m) b
  end.
Fixpoint a_max (a : arity) : nat :=
  match a with
  | ANull | AFalse => 0
  | AFix m => m
  | APair m b => Nat.max m (a_max b)
  end.

Lemma update_sorted n restp a : forall low a',
  sorted_from low a -> update_arity a n restp = Some a' -> (match low with Some l => l < n | None => True end) ->
  sorted_from low a'.
Proof.
  induction a as [|m| |m b IH]; intros low a' S U LN; simpl in U; try discriminate.
  - injection U as <-. destruct restp; simpl; auto.
  - destruct (Nat.ltb_spec m n); [|destruct (Nat.eqb_spec n m)]; injection U as <-; destruct restp; simpl in *; auto.
    split; auto. lia.
  - simpl in S. destruct (Nat.ltb_spec m n); [|destruct (Nat.eqb_spec n m)].
    + destruct b as [|k| |k b].
      * destruct (update_arity ANull n restp) as [b'|] eqn:E; [|discriminate]. injection U as <-.
        destruct S as [S1 S2]. assert (X := IH _ _ S2 eq_refl H). simpl. destruct b'; auto.
      * destruct (update_arity (AFix k) n restp) as [b'|] eqn:E; [|discriminate]. injection U as <-.
        destruct S as [S1 S2]. assert (X := IH _ _ S2 eq_refl H). simpl. destruct b'; auto.
      * injection U as <-. simpl. auto.
      * destruct (update_arity (APair k b) n restp) as [b'|] eqn:E; [|discriminate]. injection U as <-.
        destruct S as [S1 S2]. assert (X := IH _ _ S2 eq_refl H). simpl. destruct b'; auto.
    + injection U as <-. destruct restp; simpl; auto. destruct b; tauto.
    + injection U as <-. assert (n < m) by lia.
      destruct restp; simpl; [destruct b; tauto|]. split; auto. destruct b; simpl; intuition.
Qed.

Lemma includes_le_max a k : includes a k -> (forall n, includes a n -> n <= a_max a) -> k <= a_max a.
Proof. auto. Qed.

Lemma update_not_false n restp a : update_arity a n restp <> Some AFalse.
Proof.
  destruct a as [|m| |m b]; simpl; try (destruct restp; discriminate).
  - destruct (m <? n); [|destruct (n =? m)]; destruct restp; discriminate.
  - destruct (m <? n); [|destruct (n =? m); destruct restp; discriminate].
    destruct b as [|j| |j b]; try discriminate;
      match goal with |- context[update_arity ?x n restp] => destruct (update_arity x n restp); discriminate end.
Qed.
Lemma update_includes n restp a : forall low a',
  sorted_from low a -> update_arity a n restp = Some a' -> (restp = true -> a_max a <= n) ->
  forall k, includes a' k <-> includes a k \/ (if restp then n <= k else k = n).
Proof.
  induction a as [|m| |m b IH]; intros low a' S U MX k; simpl in U; try discriminate.
  - injection U as <-. destruct restp; simpl; tauto.
  - simpl in MX. destruct (Nat.ltb_spec m n); [|destruct (Nat.eqb_spec n m)]; injection U as <-; destruct restp; simpl; try tauto.
    + subst. intuition lia.
    + subst. tauto.
    + specialize (MX eq_refl). lia.
  - simpl in S, MX. destruct (Nat.ltb_spec m n); [|destruct (Nat.eqb_spec n m)].
    + assert (REC : forall b', sorted_from (Some m) b -> update_arity b n restp = Some b' -> b <> AFalse ->
                includes (APair m b') k <-> includes (APair m b) k \/ (if restp then n <= k else k = n)).
      { intros b' SB UB NF. assert (X := IH _ _ SB UB ltac:(intros R; specialize (MX R); lia) k).
        assert (NF' : b' <> AFalse).
        { intros ->. exact (update_not_false _ _ _ UB). }
        change (includes (APair m b') k) with (match b' with AFalse => m <= k | _ => k = m \/ includes b' k end).
        change (includes (APair m b) k) with (match b with AFalse => m <= k | _ => k = m \/ includes b k end).
        destruct b' ; destruct b; try congruence; tauto. }
      destruct b as [|j| |j b]; try (destruct S as [_ S2]).
      * destruct (update_arity ANull n restp) as [b'|] eqn:E; [|discriminate]. injection U as <-. apply REC; auto. discriminate.
      * destruct (update_arity (AFix j) n restp) as [b'|] eqn:E; [|discriminate]. injection U as <-. apply REC; auto. discriminate.
      * injection U as <-. simpl. destruct restp; intuition lia.
      * destruct (update_arity (APair j b) n restp) as [b'|] eqn:E; [|discriminate]. injection U as <-. apply REC; auto. discriminate.
    + injection U as <-. subst m. destruct restp.
      * specialize (MX eq_refl). cbn [includes].
        assert (HN : forall b, sorted_from (Some n) b -> a_max b <= n -> forall k, ~ includes b k).
        { clear. induction b as [|j| |j b IH]; simpl; intros S M k; try tauto; try lia.
          exfalso. destruct b; simpl in *; lia. }
        change (includes (APair n b) k) with (match b with AFalse => n <= k | _ => k = n \/ includes b k end).
        destruct b as [|j| |j b].
        -- simpl. intuition lia.
        -- destruct S as [_ S2]. specialize (HN _ S2 ltac:(lia) k). intuition lia.
        -- tauto.
        -- destruct S as [_ S2]. specialize (HN _ S2 ltac:(lia) k). intuition lia.
      * assert (forall b, includes (APair n b) n) by (intros [ | | | ]; simpl; auto).
        split; [tauto|]. intros [I| ->]; auto.
    + injection U as <-. destruct restp; [specialize (MX eq_refl); lia|].
      change (includes (APair n (APair m b)) k) with (k = n \/ includes (APair m b) k). tauto.
Qed.

(** A rest clause never requires fewer arguments than a clause before it. *)
Fixpoint rest_ascending (low : nat) (cls : list clause) : Prop :=
  match cls with
  | [] => True
  | (fm, _) :: r => (has_rest fm = true -> low <= formals_len fm) /\ rest_ascending (Nat.max low (formals_len fm)) r
  end.

Lemma update_max n restp a : forall a', update_arity a n restp = Some a' -> a_max a' <= Nat.max (a_max a) n.
Proof.
  induction a as [|m| |m b IH]; intros a' U; simpl in U; try discriminate.
  - injection U as <-. destruct restp; simpl; lia.
  - destruct (m <? n); [|destruct (n =? m)]; injection U as <-; destruct restp; simpl; lia.
  - destruct (m <? n); [|destruct (n =? m)].
    + assert (REC : forall b', update_arity b n restp = Some b' -> a_max (APair m b') <= Nat.max (a_max (APair m b)) n).
      { intros b' UB. specialize (IH _ UB). simpl. lia. }
      destruct b as [|j| |j b].
      * destruct (update_arity ANull n restp) as [b'|] eqn:E; [|discriminate]. injection U as <-. apply REC; auto.
      * destruct (update_arity (AFix j) n restp) as [b'|] eqn:E; [|discriminate]. injection U as <-. apply REC; auto.
      * injection U as <-. simpl. lia.
      * destruct (update_arity (APair j b) n restp) as [b'|] eqn:E; [|discriminate]. injection U as <-. apply REC; auto.
    + injection U as <-. destruct restp; simpl; lia.
    + injection U as <-. destruct restp; simpl; lia.
Qed.

Lemma clauses_arity_ok cls : forall a a' low,
  sorted_from None a -> a_max a <= low -> rest_ascending low cls -> clauses_arity a cls = Some a' ->
  forall n, includes a' n <-> includes a n \/ exists c, In c cls /\ takes c n.
Proof.
  induction cls as [|[fm body] r IH]; intros a a' low S M RA C n; simpl in *.
  - injection C as <-. split; [tauto|]. intros [I|[c [[] _]]]. auto.
  - destruct RA as [R1 R2]. destruct (update_arity a (formals_len fm) (has_rest fm)) as [a1|] eqn:U; [|discriminate].
    assert (MX := update_max _ _ _ _ U).
    rewrite (IH a1 a' (Nat.max low (formals_len fm))); auto; [|eapply update_sorted; eauto; exact I|lia].
    rewrite (update_includes _ _ _ None _ S U); [|intros HR; specialize (R1 HR); lia].
    assert (TK : takes (fm, body) n <-> (if has_rest fm then formals_len fm <= n else n = formals_len fm)).
    { unfold takes, has_rest, formals_len. simpl. destruct (rest fm); tauto. }
    split.
    + intros [[I|I]|[c [I T]]]; auto; right; [exists (fm, body)|exists c]; split; auto. apply TK. auto.
    + intros [I|[c [[<-|I] T]]]; auto; [left; right; apply TK; auto|]. right. exists c. auto.
Qed.

(** The code of a procedure expression is the last template made. *)
Lemma proc_code_arity e cls sc t s its s' :
  clauses_of e = Some cls -> compile e sc t s = Some (its, s') ->
  exists c idx, In (Ins (Imake_closure idx (List.length (free_vars e)))) its /\ template (tmpls s') idx = Some c /\
                clauses_arity ANull cls = Some (arity_of c).
Proof.
  intros CO C. apply compile_sound in C.
  assert (PO : exists bounds, proc_of e = Some (cls, bounds)) by (destruct e; try discriminate; injection CO as <-; eexists; reflexivity).
  destruct PO as [bounds PO].
  inversion C; subst; try discriminate. rewrite PO in H. injection H as <- <-.
  assert (NE := proc_cls _ _ _ _ _ _ _ _ _ PO H0).
  destruct (clauses_assembled _ _ _ _ _ _ _ _ NE H0) as [[ND [B EN]] _].
  destruct (written_at _ _ _ _ _ _ H1 H2 ND B EN) as [_ [AR _]].
  exists c, (List.length (tmpls s1)). split; [|split].
  - destruct t; simpl; auto.
  - apply template_new.
  - rewrite AR. eapply cclauses_arity; eauto.
Qed.

(** C35 under the condition that no rest clause requires fewer arguments than a
    clause before it (single-clause procedures always meet it). *)
Theorem C35_arity_partial :
  forall e cls sc t s its s',
    clauses_of e = Some cls -> compile e sc t s = Some (its, s') -> rest_ascending 0 cls ->
    exists c idx,
      In (Ins (Imake_closure idx (List.length (free_vars e)))) its /\ template (tmpls s') idx = Some c /\
      forall n, includes (arity_of c) n <-> exists cl, In cl cls /\ takes cl n.
Proof.
  intros e cls sc t s its s' CO C RA. destruct (proc_code_arity _ _ _ _ _ _ _ CO C) as [c [idx [I [T A]]]].
  exists c, idx. split; auto. split; auto. intros n.
  rewrite (clauses_arity_ok cls ANull (arity_of c) 0 Logic.I (le_n _) RA A n). simpl. tauto.
Qed.

(** The procedures of jitprims.c: their arity is the counts they take (Sem.v's [apply] says
    the same counts raise no arity error). *)
Theorem C35_primitive_arity p n c k :
  (prim_code p n = Some c -> (includes (arity_of c) k <-> k = n)) /\
  (identity_code = Some c -> (includes (arity_of c) k <-> k = 1)) /\
  (raise_code = Some c -> (includes (arity_of c) k <-> k = 1)) /\
  (void_code = Some c -> (includes (arity_of c) k <-> k = 0)) /\
  (apply_code = Some c -> (includes (arity_of c) k <-> 2 <= k)) /\
  (values_code = Some c -> includes (arity_of c) k).
Proof.
  split; [|split; [|split; [|split; [|split]]]]; intros H; vm_compute in H; injection H as <-; simpl; lia || tauto.
Qed.

(** Without it the arity is wrong: [(case-lambda [(a b c . r) ...] [(a . r) ...])]
    accepts one argument and its arity is [(3 . #f)]; likewise
    [(case-lambda [(a b) ...] [(a) ...])] has the arity [(1 . 2)], which is not
    an arity at all. *)
Definition ex_x := Id "x". Definition ex_y := Id "y". Definition ex_z := Id "z". Definition ex_r := Id "r".
Theorem C35_arity_refuted :
  exists e cls its s', clauses_of e = Some cls /\ compile e [] true (CSt 0 []) = Some (its, s') /\
    exists c, In c (tmpls s') /\ (exists cl, In cl cls /\ takes cl 1) /\ ~ includes (arity_of c) 1.
Proof.
  exists (ECase [(Formals [ex_x; ex_y; ex_z] (Some ex_r), [EVar ex_x]); (Formals [ex_x] (Some ex_r), [EVar ex_x])]).
  eexists _, _, _. split; [reflexivity|]. split; [vm_compute; reflexivity|].
  eexists. split; [left; reflexivity|]. split.
  - eexists. split; [right; left; reflexivity|]. unfold takes. simpl. lia.
  - simpl. lia.
Qed.
Theorem C35_not_an_arity_refuted :
  exists e cls its s', clauses_of e = Some cls /\ compile e [] true (CSt 0 []) = Some (its, s') /\
    exists c, In c (tmpls s') /\ ~ is_arity (arity_of c).
Proof.
  exists (ECase [(Formals [ex_x; ex_y] None, [EVar ex_x]); (Formals [ex_x] None, [EVar ex_x])]).
  eexists _, _, _. split; [reflexivity|]. split; [vm_compute; reflexivity|].
  eexists. split; [left; reflexivity|]. simpl. tauto.
Qed.

(** The same happens with ascending counts as soon as there are three. *)
Example C35_three_clauses :
  exists a, clauses_arity ANull [(Formals [ex_x] None, []); (Formals [ex_x; ex_y] None, []); (Formals [ex_x; ex_y; ex_z] None, [])] = Some a /\
            ~ is_arity a.
Proof. eexists. split; [reflexivity|]. simpl. tauto. Qed.

(** ** Examples *)

(** [(let-values ([(x) f]) (if x (case-lambda [(y) (x y)] [(y z . r) (begin (set! z r) (y z))]) (x)))]
    with its closure: jumps, slots and captured variables. *)
Definition ex_cls : list clause :=
  [(Formals [ex_y] None, [EApp (EVar ex_x) [EVar ex_y]]);
   (Formals [ex_y; ex_z] (Some ex_r), [ESet ex_z (EVar ex_r); EIf (EApp (EVar ex_x) [EVar ex_z]) (EVar ex_y) (EVar ex_x)])].
Definition ex_prog : expr :=
  EMvLet (EVar (Id "f")) (Formals [ex_x] None) (EIf (EApp (EVar ex_x) []) (ECase ex_cls) (EApp (EVar ex_x) [])).

Example ex_prog_compiles : compilable ex_prog = true /\ exists c, compile_top ex_prog = Some c /\ List.length (instrs_of c) > 10.
Proof. split; [reflexivity|]. eexists. split; [vm_compute; reflexivity|]. simpl. lia. Qed.
Example ex_prog_jumps : match compile_top ex_prog with
                        | Some c => exists pc t, nth_error (instrs_of c) pc = Some (Ibranchf t) /\ t > pc
                        | None => False
                        end.
Proof. vm_compute. exists 8, 15. split; [reflexivity|lia]. Qed.
Example ex_free : core (ECase ex_cls) = true /\ no_define (ECase ex_cls) = true /\ free_vars (ECase ex_cls) = [ex_x].
Proof. repeat split; reflexivity. Qed.
Example ex_ascending : rest_ascending 0 ex_cls /\ clauses_arity ANull ex_cls = Some (APair 1 (APair 2 AFalse)).
Proof. split; [|reflexivity]. simpl. repeat split; intros; try discriminate. unfold formals_len; simpl; lia. Qed.
Print Assumptions C28_compilation_succeeds.
Print Assumptions C28_compiled_jumps.
Print Assumptions C28_targets_in_range.
Print Assumptions C28_primitives_jump.
Print Assumptions C29_slots_in_frame.
Print Assumptions C30_free_variables_partial.
Print Assumptions C30_no_spurious_variable.
Print Assumptions C30_define_hides_refuted.
Print Assumptions C35_arity_partial.
Print Assumptions C35_primitive_arity.
Print Assumptions C35_arity_refuted.
Print Assumptions C35_not_an_arity_refuted.
