(** C69: programs that do not end. *)
From Coq Require Import ZArith NArith Bool Ascii String List Arith Lia.
From Verif Require Import Base Heap HeapM Ast FreeVars Code Compile CompThm Sem Vm Sim SimLemmas SimProofs SimThm EvalRun Diverge DivergeProofs DivergeSim.
Import ListNotations.
Local Open Scope list_scope.

(** The machine's side: some expression of the program, those before it having
    been run and having delivered values, keeps the machine busy for any number
    of steps. *)
Inductive runs_on (prim : N -> list val -> heap -> option presult) : thread -> list expr -> Prop :=
| RoHere t e es c :
    compile_top e = Some c ->
    (forall n, exists m', run prim n (start c (t_stk t) 0 (t_vc t) (t_vals t) (t_data t)) = Next m') ->
    runs_on prim t (e :: es)
| RoNext t e es c r m vs :
    compile_top e = Some c -> ends prim (start c (t_stk t) 0 (t_vc t) (t_vals t) (t_data t)) (Done r m) ->
    result_vals m = Some vs -> runs_on prim (left_by m) es -> runs_on prim t (e :: es).

(** ** What an evaluation can do *)

(** Yielding, going on for ever and going wrong are read off the interpreter. *)
Theorem C69_yields :
  forall prim s e x s', eval prim true [] s e x s' <-> exists n, interp prim n s e = Got x s'.
Proof.
  intros prim s e x s'. split.
  - intros H. destruct (interp_complete _ _ _ _ _ H) as [n K]. exists n. auto.
  - intros [n H]. eapply interp_sound; eauto.
Qed.
Theorem C69_diverges :
  forall prim s e, diverges prim true [] s e <-> forall n, interp prim n s e = Going.
Proof.
  intros prim s e. unfold diverges. split; intros H n; [apply interp_going_iff; auto|].
  apply (interp_going_iff prim n s e). auto.
Qed.
Theorem C69_deterministic :
  forall prim s e x s1 y s2, eval prim true [] s e x s1 -> eval prim true [] s e y s2 -> x = y /\ s1 = s2.
Proof.
  intros prim s e x s1 y s2 H1 H2. destruct (interp_complete _ _ _ _ _ H1) as [n1 K1]. destruct (interp_complete _ _ _ _ _ H2) as [n2 K2].
  assert (Q := K1 (n1 + n2) ltac:(lia)). rewrite (K2 (n1 + n2) ltac:(lia)) in Q. injection Q as -> ->. auto.
Qed.
(** No two of the three. *)
Theorem C69_exclusive :
  forall prim s e,
    (forall x s', eval prim true [] s e x s' -> ~ diverges prim true [] s e) /\
    (forall n, interp prim n s e = Wrong -> ~ diverges prim true [] s e) /\
    (forall n x s', interp prim n s e = Wrong -> ~ eval prim true [] s e x s').
Proof.
  intros prim s e. split; [|split].
  - intros x s' H D. apply C69_yields in H. destruct H as [n H]. apply (proj1 (C69_diverges prim s e)) with (n := n) in D. congruence.
  - intros n H D. apply (proj1 (C69_diverges prim s e)) with (n := n) in D. congruence.
  - intros n x s' H E. destruct (interp_complete _ _ _ _ _ E) as [k K].
    assert (Q := K (n + k) ltac:(lia)). rewrite (interp_mono prim n (n + k)) in Q; [congruence|lia|congruence].
Qed.
(** And one of them at every depth: what has not ended after [n] calls in a row
    has come to [n] calls in a row. *)
Theorem C69_progress :
  forall prim s e n,
    (exists x s', eval prim true [] s e x s') \/ interp prim n s e = Wrong \/
    (exists f vs s', ncall prim true [] s e f vs s' /\ nchain prim n s' f vs).
Proof.
  intros prim s e n. destruct (interp prim n s e) as [x s'| |] eqn:E; auto.
  - left. exists x, s'. eapply interp_sound; eauto.
  - right. right. apply interp_going; auto.
Qed.

(** ** What the machine does *)

Section Machine.
  Variable prim : N -> list val -> heap -> option presult.
  Lemma going_steps e c s d stk vc vals n :
    compile_top e = Some c -> wf false true e = true -> interp prim (S n) s e = Going -> drel s d -> d_envs d <> [] ->
    exists m', run prim n (start c stk 0 vc vals d) = Next m'.
  Proof.
    intros C W G R NE. apply interp_going in G. destruct G as [f [vs [s' [G1 G2]]]].
    eapply top_steps; eauto. destruct (d_envs d); [contradiction|simpl; lia].
  Qed.
  Lemma run_no_end m o : ends prim m o -> (forall n, exists m', run prim n m = Next m') -> False.
  Proof. intros E H. destruct (ends_run _ _ _ E) as [k [X O]]. destruct (H k) as [m' Y]. rewrite X in Y. rewrite Y in O. contradiction. Qed.
  (** What ends has a meaning, unless it goes wrong. *)
  Lemma ends_means e c s d stk vc vals o :
    compile_top e = Some c -> wf false true e = true -> drel s d -> d_envs d <> [] ->
    ends prim (start c stk 0 vc vals d) o -> (forall n, interp prim n s e <> Wrong) -> exists x s', eval prim true [] s e x s'.
  Proof.
    intros C W R NE E NW. destruct (ends_run _ _ _ E) as [k [X O]]. specialize (NW (S k)).
    destruct (interp prim (S k) s e) as [x s'| |] eqn:I; [|exfalso|congruence].
    - exists x, s'. eapply interp_sound; eauto.
    - destruct (going_steps e c s d stk vc vals k C W I R NE) as [m' Y]. rewrite X in Y. rewrite Y in O. contradiction.
  Qed.
  Lemma env_lt (d : data) : d_envs d <> [] -> 0 < List.length (d_envs d).
  Proof. destruct (d_envs d); [contradiction|simpl; lia]. Qed.
  Lemma grows_ne d d' : grows d d' -> d_envs d <> [] -> d_envs d' <> [].
  Proof. intros G NE E0. assert (L := gr_envs _ _ G). rewrite E0 in L. destruct (d_envs d); [contradiction|simpl in L; lia]. Qed.
  Definition fit (es : list expr) : Prop := Forall (fun e => compilable e = true /\ wf false true e = true) es.

  Lemma loops_run s es : loops prim s es -> fit es -> forall stk vc vals d, drel s d -> d_envs d <> [] -> runs_on prim (Thread stk vc vals d) es.
  Proof.
    induction 1 as [s e es D|s e es vs s1 EV L IH]; intros F stk vc vals d R NE; inversion F as [|? ? [CP W] F']; subst;
      destruct (C28_compilation_succeeds e CP) as [c C].
    - eapply RoHere; [exact C|]. intros n. eapply going_steps; eauto. apply C69_diverges. auto.
    - assert (T := top_run prim e c _ d _ _ stk 0 vc vals C W EV R (env_lt _ NE)). destruct T as [m [r [E [V [_ [R1 G]]]]]].
      eapply RoNext; eauto. apply IH; auto. eapply grows_ne; eauto.
  Qed.
  Lemma run_loops t es : runs_on prim t es -> fit es -> forall s, ~ goes_wrong prim s es -> drel s (t_data t) -> d_envs (t_data t) <> [] ->
    loops prim s es.
  Proof.
    induction 1 as [t e es c C H|t e es c r m vs C E V X IH]; intros F s NW R NE; inversion F as [|? ? [CP W] F']; subst.
    - apply LpHere. apply C69_diverges. intros n. destruct (interp prim n s e) as [x s'| |] eqn:I; auto; exfalso.
      + apply interp_sound in I. assert (T := top_run prim e c _ (t_data t) _ _ (t_stk t) 0 (t_vc t) (t_vals t) C W I R (env_lt _ NE)).
        destruct x as [vs|y]; [destruct T as [m [r [T _]]]|destruct T as [m [T _]]]; eapply run_no_end; eauto.
      + apply NW. eapply GwHere; eauto.
    - destruct (ends_means e c s (t_data t) (t_stk t) (t_vc t) (t_vals t) (Done r m) C W R NE E) as [x [s' EV]].
      { intros n I. apply NW. eapply GwHere; eauto. }
      assert (T := top_run prim e c _ (t_data t) _ _ (t_stk t) 0 (t_vc t) (t_vals t) C W EV R (env_lt _ NE)).
      destruct x as [ws|y].
      + destruct T as [m' [r' [E' [V' [_ [R1 G]]]]]]. assert (Q := ends_fun _ _ _ _ E E'). injection Q as <- <-.
        eapply LpNext; [exact EV|]. apply IH; auto; [|eapply grows_ne; eauto]. intros NW'. apply NW. eapply GwNext; eauto.
      + destruct T as [m' [E' _]]. assert (Q := ends_fun _ _ _ _ E E'). discriminate.
  Qed.
  Lemma executes_means t es rs d' : execution prim t es rs d' -> fit es ->
    forall s, ~ goes_wrong prim s es -> drel s (t_data t) -> d_envs (t_data t) <> [] -> exists s', meaning prim s es rs s' /\ drel s' d'.
  Proof.
    induction 1 as [t|t e es c r m vs rs d' C E V X IH|t e es c y m C E]; intros F s NW R NE; [exists s; split; auto; constructor| |];
      inversion F as [|? ? [CP W] F']; subst;
      (destruct (ends_means e c s (t_data t) (t_stk t) (t_vc t) (t_vals t) _ C W R NE E) as [x [s' EV]];
       [intros n I; apply NW; eapply GwHere; eauto|]);
      assert (T := top_run prim e c _ (t_data t) _ _ (t_stk t) 0 (t_vc t) (t_vals t) C W EV R (env_lt _ NE)).
    - destruct x as [ws|y].
      + destruct T as [m' [r' [E' [V' [_ [R1 G]]]]]]. assert (Q := ends_fun _ _ _ _ E E'). injection Q as <- <-. rewrite V in V'. injection V' as <-.
        destruct (IH F' s') as [s2 [M R2]]; auto; [|eapply grows_ne; eauto|]. { intros NW'. apply NW. eapply GwNext; eauto. }
        exists s2. split; auto. eapply MnVal; eauto.
      + destruct T as [m' [E' _]]. assert (Q := ends_fun _ _ _ _ E E'). discriminate.
    - destruct x as [ws|z].
      + destruct T as [m' [r' [E' _]]]. assert (Q := ends_fun _ _ _ _ E E'). discriminate.
      + destruct T as [m' [E' R1]]. assert (Q := ends_fun _ _ _ _ E E'). injection Q as <- <-. exists s'. split; auto. constructor. auto.
  Qed.
  Lemma runs_on_no_end t es : runs_on prim t es -> forall rs d', ~ execution prim t es rs d'.
  Proof.
    induction 1 as [t e es c C H|t e es c r m vs C E V X IH]; intros rs d' Y; inversion Y as [|? ? ? c2 r2 m2 vs2 rs3 ? C2 E2 V2 X2|? ? ? c2 y2 m2 C2 E2]; subst;
      rewrite C in C2; injection C2 as <-; try (eapply run_no_end; eauto; fail);
      assert (Q := ends_fun _ _ _ _ E E2); try discriminate. injection Q as <- <-. eapply IH; eauto.
  Qed.
End Machine.

(** A program that does not end is not ended: the machine has no final state for
    it, neither results nor an error, and it can always take another step. *)
Theorem C69_endless_programs_run_on :
  forall prim sys d0 es stk vc vals,
    boot_data sys no_data = Some d0 ->
    Forall (fun e => compilable e = true /\ wf false true e = true) es ->
    loops prim (boot_store sys no_store) es ->
    runs_on prim (Thread stk vc vals d0) es /\ forall rs d', ~ execution prim (Thread stk vc vals d0) es rs d'.
Proof.
  intros prim sys d0 es stk vc vals B F L.
  destruct (boot_rel sys no_store no_data d0) as [R NE]; auto; [repeat constructor|discriminate|].
  assert (X : runs_on prim (Thread stk vc vals d0) es) by (eapply loops_run; eauto). split; auto. apply runs_on_no_end. auto.
Qed.
(** Conversely. *)
Theorem C69_running_programs_are_endless :
  forall prim sys d0 es stk vc vals,
    boot_data sys no_data = Some d0 ->
    Forall (fun e => compilable e = true /\ wf false true e = true) es ->
    ~ goes_wrong prim (boot_store sys no_store) es ->
    (runs_on prim (Thread stk vc vals d0) es <-> loops prim (boot_store sys no_store) es).
Proof.
  intros prim sys d0 es stk vc vals B F NW.
  destruct (boot_rel sys no_store no_data d0) as [R NE]; auto; [repeat constructor|discriminate|].
  split; intros X; [eapply run_loops; eauto|eapply loops_run; eauto].
Qed.
(** A program that ends, ends with the results of its meaning, and one with a
    meaning ends. *)
Theorem C69_results_are_the_meaning :
  forall prim sys d0 es stk vc vals rs,
    boot_data sys no_data = Some d0 ->
    Forall (fun e => compilable e = true /\ wf false true e = true) es ->
    ~ goes_wrong prim (boot_store sys no_store) es ->
    ((exists d', execution prim (Thread stk vc vals d0) es rs d') <-> exists s', meaning prim (boot_store sys no_store) es rs s').
Proof.
  intros prim sys d0 es stk vc vals rs B F NW.
  destruct (boot_rel sys no_store no_data d0) as [R NE]; auto; [repeat constructor|discriminate|].
  split.
  - intros [d' X]. destruct (executes_means _ _ _ _ _ X F _ NW R NE) as [s' [M _]]. eauto.
  - intros [s' M]. destruct (C31_programs_partial prim sys d0 es rs s' stk vc vals B F M) as [d' [X _]]. eauto.
Qed.
(** With the heap and the global variables it leaves. *)
Theorem C69_state_is_the_meaning :
  forall prim sys d0 es stk vc vals rs d',
    boot_data sys no_data = Some d0 ->
    Forall (fun e => compilable e = true /\ wf false true e = true) es ->
    ~ goes_wrong prim (boot_store sys no_store) es ->
    execution prim (Thread stk vc vals d0) es rs d' ->
    exists s', meaning prim (boot_store sys no_store) es rs s' /\ d_heap d' = heap_of s' /\
               forall x, global_value (d_glob d') x = global_value (glob_of s') x.
Proof.
  intros prim sys d0 es stk vc vals rs d' B F NW X.
  destruct (boot_rel sys no_store no_data d0) as [R NE]; auto; [repeat constructor|discriminate|].
  destruct (executes_means _ _ _ _ _ X F _ NW R NE) as [s' [M R']]. exists s'. split; auto. split; [symmetry; apply R'|].
  intros x. assert (Q := dr_glob _ _ R' x).
  unfold global_value. destruct (glob_ref x (glob_of s')); [rewrite Q; auto|destruct Q as [-> | ->]; auto].
Qed.
(** A program ends, runs on, or goes wrong: it cannot do two of these. *)
Theorem C69_ends_or_runs_on :
  forall prim sys d0 es stk vc vals,
    boot_data sys no_data = Some d0 ->
    Forall (fun e => compilable e = true /\ wf false true e = true) es ->
    ~ goes_wrong prim (boot_store sys no_store) es ->
    (forall rs d', ~ execution prim (Thread stk vc vals d0) es rs d') ->
    ~ ~ runs_on prim (Thread stk vc vals d0) es.
Proof.
  intros prim sys d0 es stk vc vals B F NW NX NR.
  destruct (boot_rel sys no_store no_data d0) as [R NE]; auto; [repeat constructor|discriminate|].
  clear B. revert stk vc vals d0 R NE NX NR. generalize (boot_store sys no_store) as s, NW. clear NW.
  induction F as [|e es [CP W] F IH]; intros s NW stk vc vals d R NE NX NR.
  - eapply NX. apply (ExNil prim (Thread stk vc vals d)).
  - destruct (C28_compilation_succeeds e CP) as [c C].
    assert (NI : forall n, interp prim n s e <> Wrong) by (intros n I; apply NW; eapply GwHere; eauto).
    assert (ND : forall x s', eval prim true [] s e x s' -> False).
    { intros x s' EV. assert (T := top_run prim e c _ d _ _ stk 0 vc vals C W EV R (env_lt _ NE)). destruct x as [vs|y].
      - destruct T as [m [r [E [V [_ [R1 G]]]]]].
        apply (IH s' ltac:(intros X; apply NW; eapply GwNext; eauto) (m_stk m) (m_vc m) (m_vals m) (m_data m) R1 (grows_ne _ _ G NE)).
        + intros rs d' X. eapply NX. eapply ExVal; eauto.
        + intros X. apply NR. eapply RoNext; eauto.
      - destruct T as [m [E _]]. eapply NX. eapply ExErr; eauto. }
    apply NR. eapply RoHere; [exact C|]. intros n. eapply going_steps; eauto.
    destruct (interp prim (S n) s e) as [x s'| |] eqn:I; auto; exfalso; [|eapply NI; eauto]. eapply ND. eapply interp_sound; eauto.
Qed.

(** ** Cases *)

(** (define-values (f) (lambda (x) (f x))) (f 3) *)
Definition endless : list expr := [EDefine [idf] (ELam (Formals [idx] None) [EApp (EVar idf) [EVar idx]]); EApp (EVar idf) [EConst (VFix 3)]].
Lemma rep_end (v : val) k : repeat v k ++ [v] = repeat v (S k).
Proof. induction k as [|k IH]; simpl in *; [reflexivity|]. rewrite IH. reflexivity. Qed.
Lemma rep_nth (v : val) k : nth_error (repeat v (S k)) k = Some v.
Proof. induction k as [|k IH]; simpl in *; [reflexivity|]. auto. Qed.
Example endless_calls : forall n k, ap no_prim n (loop_store k) (VPtr 0) [VFix 3] = Going.
Proof.
  induction n as [|n IH]; intros k; [reflexivity|]. cbn. unfold ev_one. cbn. rewrite rep_end.
  rewrite repeat_length, rep_nth. cbn. exact (IH (S k)).
Qed.
Example endless_loops : loops no_prim no_store endless.
Proof.
  eapply LpNext; [eapply (EvDefine no_prim true [] no_store [idf] _ [VPtr 0]); [constructor; reflexivity|reflexivity]|].
  apply LpHere. apply C69_diverges. intros n. exact (endless_calls n 0).
Qed.
Example endless_not_wrong : ~ goes_wrong no_prim no_store endless.
Proof.
  assert (E : eval no_prim true [] no_store (EDefine [idf] (ELam (Formals [idx] None) [EApp (EVar idf) [EVar idx]])) (RVals [VVoid]) (loop_store 0)).
  { apply (EvDefine no_prim true [] no_store [idf] _ [VPtr 0] (Store [COther 0] [(0, PClo [loop_clause] [])] [] [])); [constructor; reflexivity|reflexivity]. }
  intros H. inversion H as [? ? ? n I|? ? ? vs s1 EV H2]; subst.
  - apply (proj2 (proj2 (C69_exclusive no_prim no_store _)) n _ _ I E).
  - destruct (C69_deterministic _ _ _ _ _ _ _ E EV) as [_ <-].
    inversion H2 as [? ? ? n I|? ? ? ws s2 EV2 H3]; subst; [|inversion H3].
    change (ap no_prim n (loop_store 0) (VPtr 0) [VFix 3] = Wrong) in I. rewrite endless_calls in I. discriminate.
Qed.
Example endless_runs_on :
  Forall (fun e => compilable e = true /\ wf false true e = true) endless /\ runs_on no_prim (Thread (fun _ => SNone) 0 [] no_data) endless.
Proof.
  assert (F : Forall (fun e => compilable e = true /\ wf false true e = true) endless) by (repeat constructor). split; auto.
  apply (C69_endless_programs_run_on no_prim [] no_data); auto. exact endless_loops.
Qed.

(** A loop that is not in tail position: (define-values (f) (lambda (x) (if (f x) 1 2))) (f 3). *)
Definition nested : list expr :=
  [EDefine [idf] (ELam (Formals [idx] None) [EIf (EApp (EVar idf) [EVar idx]) (EConst (VFix 1)) (EConst (VFix 2))]); EApp (EVar idf) [EConst (VFix 3)]].
Definition nested_store (k : nat) : store :=
  Store [COther 0] [(0, PClo [(Formals [idx] None, [EIf (EApp (EVar idf) [EVar idx]) (EConst (VFix 1)) (EConst (VFix 2))])] [])]
        (repeat (VFix 3) k) [(idf, VPtr 0)].
Example nested_calls : forall n k, ap no_prim n (nested_store k) (VPtr 0) [VFix 3] = Going.
Proof.
  induction n as [|n IH]; intros k; [reflexivity|]. cbn. unfold ev_one. cbn. rewrite rep_end.
  rewrite repeat_length, rep_nth. cbn. fold (repeat (VFix 3) k). change (VFix 3 :: repeat (VFix 3) k) with (repeat (VFix 3) (S k)).
  assert (Q := IH (S k)). unfold nested_store in Q. rewrite Q. reflexivity.
Qed.
Example nested_runs_on : runs_on no_prim (Thread (fun _ => SNone) 0 [] no_data) nested.
Proof.
  apply (C69_endless_programs_run_on no_prim [] no_data); auto; [repeat constructor|].
  eapply LpNext; [eapply (EvDefine no_prim true [] no_store [idf] _ [VPtr 0]); [constructor; reflexivity|reflexivity]|].
  apply LpHere. apply C69_diverges. intros n. exact (nested_calls n 0).
Qed.

(** A call of a primitive whose behaviour is undefined goes wrong. *)
Example wrong_call : goes_wrong no_prim (boot_store [(idf, PPrim 0%N 1)] no_store) [EApp (EVar idf) [EConst (VFix 3)]].
Proof. eapply (GwHere _ _ _ _ 1). vm_compute. reflexivity. Qed.
(** And a program that ends. *)
Example ends_right : ~ goes_wrong no_prim no_store [EIf (EConst VFalse) (EConst (VFix 1)) (EConst (VFix 2))].
Proof.
  intros H. inversion H as [? ? ? n I|? ? ? ws s2 EV2 H3]; subst; [|inversion H3]. vm_compute in I. discriminate.
Qed.

Print Assumptions C69_yields.
Print Assumptions C69_diverges.
Print Assumptions C69_deterministic.
Print Assumptions C69_exclusive.
Print Assumptions C69_progress.
Print Assumptions C69_endless_programs_run_on.
Print Assumptions C69_running_programs_are_endless.
Print Assumptions C69_results_are_the_meaning.
Print Assumptions C69_state_is_the_meaning.
Print Assumptions C69_ends_or_runs_on.
