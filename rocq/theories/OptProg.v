(** Whole programs: the passes one after the other. *)
From Coq Require Import ZArith NArith Bool Ascii String List Arith Lia Permutation.
From Verif Require Import Base Heap HeapM Ast Sem Opt OptRel OptSim OptProofs OptFun CompThm SimThm.
Import ListNotations.
Local Open Scope list_scope.

(** ** The store in which a program starts *)
Definition closed_val (n : nat) (v : val) : Prop := match v with VPtr l => l < n | VUnbound => False | _ => True end.
Definition closed_cell (n : nat) (c : cell) : Prop :=
  match c with
  | CPair a d => closed_val n a /\ closed_val n d
  | CVec xs => Forall (closed_val n) xs
  | CBox v => closed_val n v
  | CRec t xs => closed_val n t /\ Forall (closed_val n) xs
  | CSyntax e l => closed_val n e /\ closed_val n l
  | CStr _ | CHash _ | COther _ => True
  end.
(** No dangling references, no closures and no local variables yet, and [values]
    is bound to the procedure of that name. *)
Record ready (s : store) : Prop := Ready {
  rd_heap : Forall (closed_cell (List.length (heap_of s))) (heap_of s);
  rd_glob : forall x v, glob_ref x (glob_of s) = Some v -> closed_val (List.length (heap_of s)) v;
  rd_procs : forall l p, proc_ref l (procs_of s) = Some p -> l < List.length (heap_of s) /\ forall cls r, p <> PClo cls r;
  rd_cells : cells_of s = [];
  rd_values : exists l, glob_ref values_id (glob_of s) = Some (VPtr l) /\ proc_ref l (procs_of s) = Some PValues }.

Definition keepall (n : nat) : renaming := fun l => if l <? n then Some l else None.
Lemma keepall_val u n v : closed_val n v -> vrel u (keepall n) v v.
Proof. destruct v; simpl; auto; try tauto. intros L. unfold keepall. apply Nat.ltb_lt in L. rewrite L. auto. Qed.
Lemma keepall_vals u n vs : Forall (closed_val n) vs -> vsrel u (keepall n) vs vs.
Proof. induction 1; constructor; auto using keepall_val. Qed.
Lemma keepall_cell u n c : closed_cell n c -> crel u (keepall n) c c.
Proof. destruct c; simpl; intuition auto using keepall_val, keepall_vals. Qed.
Lemma keepall_inj n : injective (keepall n).
Proof. intros a b c. unfold keepall. destruct (a <? n), (b <? n); congruence. Qed.

Lemma ready_srel resv unb vals s : ready s ->
  srel resv unb vals (List.length (heap_of s)) (Inj (keepall (List.length (heap_of s))) (fun _ => None) (fun _ => None)) s s.
Proof.
  intros R. constructor; simpl; try discriminate.
  - intros l l' E. unfold keepall in E. destruct (l <? List.length (heap_of s)) eqn:L; [|discriminate]. injection E as <-. apply Nat.ltb_lt in L.
    destruct (nth_error (heap_of s) l) as [c|] eqn:Q; [|apply nth_error_None in Q; lia]. exists c, c. split; auto. split; auto. apply keepall_cell.
    assert (H := rd_heap _ R). rewrite Forall_forall in H. apply H. eapply nth_error_In; eauto.
  - apply keepall_inj.
  - intros l L. unfold keepall. apply Nat.ltb_lt in L. rewrite L. auto.
  - intros x. destruct (glob_ref x (glob_of s)) eqn:G; simpl; auto. apply keepall_val. eapply rd_glob; eauto.
  - intros l l' E. unfold keepall in E. destruct (l <? List.length (heap_of s)) eqn:L; [|discriminate]. injection E as <-.
    destruct (proc_ref l (procs_of s)) eqn:P; simpl; auto. apply PrSys. apply (rd_procs _ R _ _ P).
  - intros. eapply rd_procs; eauto.
  - intros. eapply rd_procs; eauto.
  - intros _. apply (rd_values _ R).
Qed.

(** ** Outcomes up to renaming *)
Record same_outcome (u : bool) (h : renaming) (n : nat) (rs rs' : list res) (s s' : store) : Prop := Same {
  so_inj : injective h;
  so_old : forall l, l < n -> h l = Some l;
  so_results : Forall2 (rrel u h) rs rs';
  so_heap : hrel u h (heap_of s) (heap_of s');
  so_glob : forall x, orel (vrel u h) (glob_ref x (glob_of s)) (glob_ref x (glob_of s')) }.
Definition no_count (rs : list res) : Prop := Forall (fun x => count_error x = false) rs.

Lemma rrel_count u h x x' : rrel u h x x' -> count_error x' = false.
Proof. destruct x as [|[]], x' as [|[]]; simpl; tauto. Qed.
Lemma same_count u h n rs rs' s s' : same_outcome u h n rs rs' s s' -> no_count rs'.
Proof. intros [_ _ F _ _]. induction F; constructor; eauto using rrel_count. Qed.

Definition comp (h k : renaming) : renaming := fun l => match h l with Some l' => k l' | None => None end.
Lemma comp_val u1 u2 h k a b c : vrel u1 h a b -> vrel u2 k b c -> vrel (u1 && u2) (comp h k) a c.
Proof.
  destruct a; simpl; try (intros ->; simpl; auto; fail).
  - intros [-> ->] [-> ->]. auto.
  - unfold comp. destruct (h l) as [l'|]; [|tauto]. intros ->. simpl. auto.
Qed.
Lemma comp_vals u1 u2 h k a b : vsrel u1 h a b -> forall c, vsrel u2 k b c -> vsrel (u1 && u2) (comp h k) a c.
Proof. induction 1; intros c H2; inversion H2; subst; constructor; eauto using comp_val. apply IHForall2. auto. Qed.
Lemma comp_cell u1 u2 h k a b c : crel u1 h a b -> crel u2 k b c -> crel (u1 && u2) (comp h k) a c.
Proof.
  destruct a, b; simpl; try tauto; destruct c; simpl; try tauto; try congruence;
    intuition eauto using comp_val, comp_vals.
Qed.
Lemma comp_herr u1 u2 h k a b c : herel u1 h a b -> herel u2 k b c -> herel (u1 && u2) (comp h k) a c.
Proof.
  destruct a, b; simpl; try tauto; destruct c; simpl; try tauto; try congruence; intuition eauto using comp_val, comp_vals; congruence.
Qed.
Lemma comp_res u1 u2 h k a b c : rrel u1 h a b -> rrel u2 k b c -> rrel (u1 && u2) (comp h k) a c.
Proof.
  destruct a as [vs|y], b as [vs'|y']; simpl; try tauto; destruct c as [vs2|y2]; simpl; try tauto; eauto using comp_vals.
  destruct y, y'; simpl; try tauto; destruct y2; simpl; try tauto; try congruence; eauto using comp_val, comp_herr.
Qed.
Lemma same_trans u1 u2 h k n rs rs1 rs2 s s1 s2 :
  same_outcome u1 h n rs rs1 s s1 -> same_outcome u2 k n rs1 rs2 s1 s2 -> same_outcome (u1 && u2) (comp h k) n rs rs2 s s2.
Proof.
  intros [A1 B1 C1 D1 E1] [A2 B2 C2 D2 E2]. constructor.
  - intros a b c. unfold comp. destruct (h a) as [a'|] eqn:HA; [|discriminate]. destruct (h b) as [b'|] eqn:HB; [|discriminate].
    intros X Y. assert (a' = b') by (eapply A2; eauto). subst. eapply A1; eauto.
  - intros l L. unfold comp. rewrite (B1 l L). auto.
  - clear -C1 C2. revert rs2 C2. induction C1; intros rs2 C2; inversion C2; subst; constructor; eauto using comp_res.
  - intros l l2 Q. unfold comp in Q. destruct (h l) as [l1|] eqn:HL; [|discriminate].
    destruct (D1 _ _ HL) as [c [c1 [X [Y Z]]]]. destruct (D2 _ _ Q) as [c1' [c2 [X2 [Y2 Z2]]]]. rewrite Y in X2. injection X2 as <-.
    exists c, c2. split; auto. split; auto. eapply comp_cell; eauto.
  - intros x. specialize (E1 x). specialize (E2 x).
    destruct (glob_ref x (glob_of s)), (glob_ref x (glob_of s1)), (glob_ref x (glob_of s2)); simpl in *; try tauto. eapply comp_val; eauto.
Qed.

(** ** One step on a whole program *)
Definition topok (e : expr) : bool := locals_only [] e || plain e.
Lemma topok_conds e : topok e = true -> conds true true [] [e].
Proof.
  unfold topok. rewrite orb_true_iff. intros [H|H]; [left; right|right].
  - exists []. simpl. rewrite H. split; auto. intros x [].
  - simpl. rewrite H. auto.
Qed.
Lemma opt_topok resv unb vals base e e' : opt resv unb vals base e e' -> topok e = true -> topok e' = true.
Proof.
  unfold topok. rewrite !orb_true_iff. intros O [H|H]; [left; eapply opt_locals; eauto|right; eapply opt_plain; eauto].
Qed.
Lemma opts_topok resv unb vals base es es' : opts resv unb vals base es es' -> forallb topok es = true -> forallb topok es' = true.
Proof. induction 1; simpl; auto. intros. bools; auto. eapply opt_topok; eauto. Qed.

Section Prog.
  Variable prim : N -> list val -> heap -> option presult.
  Hypothesis AL : allocates prim.
  Hypothesis AF : address_free prim.

  Lemma step_run resv unb vals base s es rs s1 : meaning prim s es rs s1 -> no_count rs ->
    forall es' i s', opts resv unb vals base es es' -> forallb topok es = true -> srel resv unb vals base i s s' ->
    exists rs' s1' j, meaning prim s' es' rs' s1' /\ le i j /\ Forall2 (rrel unb (hp j)) rs rs' /\ srel resv unb vals base j s1 s1'.
  Proof.
    assert (ER : forall i, erel resv vals i [] []) by (intros i; split; simpl; auto).
    assert (SIM := proj1 (simulation prim AL AF resv unb vals base)).
    induction 1 as [s|s e es vs s1 rs s2 E M IH|s e es y s1 E]; intros NC es' i s' O T R.
    - inversion O; subst. exists [], s', i. split; [constructor|]. split; auto using le_refl.
    - inversion O as [|? e' ? es1 O1 O2]; subst. inversion NC; subst. simpl in T. bools.
      destruct (SIM _ _ _ _ _ _ E true [] s' e' i O1 (topok_conds _ H) (ER i) R) as [C|[x' [s1' [j [EV [L [RR SR]]]]]]]; [simpl in C; discriminate|].
      destruct (IH H2 es1 j s1' O2 H0 SR) as [rs' [s2' [k [ME [L2 [F SR2]]]]]].
      destruct x' as [vs'|y']; [|destruct RR]. exists (RVals vs' :: rs'), s2', k. split; [econstructor; eauto|]. split; [eauto using le_trans|].
      split; auto. constructor; auto. eapply rrel_mono; [|exact RR]. apply L2.
    - inversion O as [|? e' ? es1 O1 O2]; subst. inversion NC; subst. simpl in T. bools.
      destruct (SIM _ _ _ _ _ _ E true [] s' e' i O1 (topok_conds _ H) (ER i) R) as [C|[x' [s1' [j [EV [L [RR SR]]]]]]]; [congruence|].
      destruct x' as [vs'|y']; [destruct RR|]. exists [RErr y'], s1', j. split; [constructor; auto|]. split; auto.
  Qed.
  Lemma step_prog resv unb vals s es rs s1 es' : ready s -> meaning prim s es rs s1 -> no_count rs -> forallb topok es = true ->
    opts resv unb vals (List.length (heap_of s)) es es' ->
    exists h rs' s1', meaning prim s es' rs' s1' /\ same_outcome unb h (List.length (heap_of s)) rs rs' s1 s1'.
  Proof.
    intros R M NC T O. destruct (step_run resv unb vals _ _ _ _ _ M NC es' _ _ O T (ready_srel resv unb vals s R)) as [rs' [s1' [j [ME [L [F SR]]]]]].
    exists (hp j), rs', s1'. split; auto. constructor; auto; apply SR.
  Qed.
  Lemma steps_prog s es rs s1 es' : ready s -> lsteps (List.length (heap_of s)) es es' -> meaning prim s es rs s1 -> no_count rs -> forallb topok es = true ->
    forallb topok es' = true /\
    exists h rs' s1', meaning prim s es' rs' s1' /\ same_outcome true h (List.length (heap_of s)) rs rs' s1 s1'.
  Proof.
    intros R. induction 1 as [es O|es es1 es2 S IH O]; intros M NC T.
    - split; auto. eapply step_prog; eauto.
    - destruct (IH M NC T) as [T1 [h [rs1 [t1 [M1 S1]]]]]. split; [eapply opts_topok; eauto|].
      destruct (step_prog _ _ _ _ _ _ _ _ R M1 (same_count _ _ _ _ _ _ _ S1) T1 O) as [k [rs2 [t2 [M2 S2]]]].
      exists (comp h k), rs2, t2. split; auto. apply (same_trans true true _ _ _ _ _ _ _ _ _ S1 S2).
  Qed.
End Prog.

(** ** The passes on a whole program: each expression in turn. *)
Lemma optimize_steps N base f es : forall n es' n', N <= n -> forallb (src N base) es = true -> seq0 (optimize f) n es = Some (es', n') ->
  exists es0 es1, opts (fresh N) false false base es es0 /\ lsteps base es0 es1 /\ opts none true true base es1 es' /\ n <= n'.
Proof.
  induction es as [|e es IH]; intros n es' n' L W E.
  - injection E as <- <-. exists [], []. split; [constructor|]. split; [constructor; constructor|]. split; [constructor|auto].
  - simpl in E, W. bools. destruct (optimize f n e) as [[e2 n1]|] eqn:Oe; [|discriminate].
    destruct (seq0 (optimize f) n1 es) as [[r n2]|] eqn:Os; [|discriminate]. injection E as <- <-.
    unfold optimize in Oe. destruct (opt_L0 f n e) as [[e0 n3]|] eqn:E0; [|discriminate].
    destruct (opt_L1 f e0) as [e1|] eqn:E1; [|discriminate]. destruct (opt_L2 f e1) as [e3|] eqn:E2; [|discriminate]. injection Oe as <- <-.
    destruct (L0_step N base f _ _ _ _ E0 H L) as [O0 [G0 [L0 _]]]. destruct (L1_steps base f _ _ E1 G0) as [S1 [G1 _]].
    assert (O2 := L2_step base f _ _ E2 G1).
    destruct (IH n3 r n2) as [es0 [es1 [A [B [C D]]]]]; auto; [lia|].
    exists (e0 :: es0), (e1 :: es1). split; [constructor; auto|]. split; [apply lsteps_cons; auto|]. split; [constructor; auto|lia].
Qed.

(** What the passes leave can be compiled. *)
Lemma good_imm base ids body args :
  good1 base (EApp (ELam (Formals ids None) body) args) = true -> good1 base (imm_expr ids body args) = true.
Proof.
  simpl. rewrite fm_none. intros G. bools. unfold imm_expr. destruct args as [|a [|a2 args]]; simpl in *; bools; auto using good_begin1.
Qed.
Lemma L2_compilable base f : forall e e', opt_L2 f e = Some e' -> good1 base e = true -> compilable e' = true.
Proof.
  induction f as [|f IH]; intros e e' E G; [discriminate|].
  assert (SQ : forall es es', seq1 (opt_L2 f) es = Some es' -> forallb (good1 base) es = true -> forallb compilable es' = true).
  { induction es as [|x es IHs]; simpl; intros es' Q W; [injection Q as <-; auto|]. bools. destruct (opt_L2 f x) eqn:E1; [|discriminate].
    destruct (seq1 (opt_L2 f) es) eqn:E2; [|discriminate]. injection Q as <-. simpl. bools; eauto. }
  assert (CQ : forall cls cls', clauses1 (opt_L2 f) cls = Some cls' ->
     forallb (fun c => nov (fm_ids (fst c)) && some (snd c) && forallb (good1 base) (snd c)) cls = true ->
     forallb (fun c : clause => forallb compilable (snd c)) cls' = true /\ List.length cls' = List.length cls).
  { induction cls as [|[fm b] cls IHs]; simpl; intros cls' Q W; [injection Q as <-; auto|]. bools. destruct (seq1 (opt_L2 f) b) eqn:E1; [|discriminate].
    destruct (clauses1 (opt_L2 f) cls) eqn:E2; [|discriminate]. injection Q as <-. simpl. destruct (IHs _ eq_refl H0). split; [bools; eauto|auto]. }
  assert (AP : forall g es q, appok g es && good1 base g && forallb (good1 base) es = true ->
            match opt_L2 f g, seq1 (opt_L2 f) es with Some g', Some es' => Some (EApp g' es') | _, _ => None end = Some q -> compilable q = true).
  { intros g es q GG Q. bools. destruct (opt_L2 f g) eqn:E1; [|discriminate]. destruct (seq1 (opt_L2 f) es) eqn:E2; [|discriminate].
    injection Q as <-. simpl. bools; eauto. }
  assert (G0 := G).
  destruct e; cbn [opt_L2] in E; simpl in G; bools; try discriminate;
    try (injection E as <-; reflexivity);
    try (destruct (opt_L2 f e) eqn:E1; [|discriminate]; injection E as <-; simpl; eauto; fail);
    try (destruct (seq1 (opt_L2 f) body) eqn:E1; [|discriminate]; injection E as <-; simpl; eauto; fail);
    try (destruct (seq1 (opt_L2 f) es) eqn:E1; [|discriminate]; injection E as <-; simpl; eauto; fail);
    try (destruct (opt_L2 f e1) eqn:E1; [|discriminate]; destruct (opt_L2 f e2) eqn:E2; [|discriminate]; injection E as <-; simpl; bools; eauto; fail).
  - destruct (clauses1 (opt_L2 f) cls) as [cls'|] eqn:E1; [|discriminate]. injection E as <-. destruct (CQ _ _ E1 H0) as [A B].
    simpl. destruct cls', cls; try discriminate. exact A.
  - destruct (opt_L2 f e1) eqn:E1; [|discriminate]. destruct (opt_L2 f e2) eqn:E2; [|discriminate]. destruct (opt_L2 f e3) eqn:E3; [|discriminate].
    injection E as <-. simpl. bools; eauto.
  - destruct e; try (eapply AP; [|exact E]; simpl in *; bools; auto; fail). destruct fm as [ids [y|]]; [eapply AP; [|exact E]; simpl in *; bools; auto|].
    eapply IH; [exact E|]. apply good_imm. auto.
Qed.
Lemma optimize_compilable N base f es : forall n es' n', N <= n -> forallb (src N base) es = true -> seq0 (optimize f) n es = Some (es', n') ->
  Forall (fun e => compilable e = true) es'.
Proof.
  induction es as [|e es IH]; intros n es' n' L W E.
  - injection E as <- <-. constructor.
  - simpl in E, W. bools. destruct (optimize f n e) as [[e2 n1]|] eqn:Oe; [|discriminate].
    destruct (seq0 (optimize f) n1 es) as [[r n2]|] eqn:Os; [|discriminate]. injection E as <- <-.
    unfold optimize in Oe. destruct (opt_L0 f n e) as [[e0 n3]|] eqn:E0; [|discriminate].
    destruct (opt_L1 f e0) as [e1|] eqn:E1; [|discriminate]. destruct (opt_L2 f e1) as [e3|] eqn:E2; [|discriminate]. injection Oe as <- <-.
    destruct (L0_step N base f _ _ _ _ E0 H L) as [O0 [G0 [L0 _]]]. destruct (L1_steps base f _ _ E1 G0) as [S1 [G1 _]].
    constructor; [eapply L2_compilable; eauto|]. eapply (IH n3); eauto. lia.
Qed.
