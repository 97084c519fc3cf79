(** Optimisation before compilation does not change what programs do (C32). *)
From Coq Require Import ZArith NArith Bool Ascii String List Arith Lia.
From Verif Require Import Base Heap HeapM Ast Sem Opt OptRel OptSim OptProofs OptFun OptProg EvalFun EvalRun OptTerm CompThm Vm Sim SimThm.
Import ListNotations.
Local Open Scope list_scope.

(** The passes on a whole program, expression by expression: read-eval-print in
    eval_istream and load_file, jit.c:153-162, boot.c.  The counter of gensym is
    threaded. *)
Definition optimize_program (f n : nat) (es : list expr) : option (list expr * nat) := seq0 (optimize f) n es.

(** ** The optimiser terminates *)

(** On every expression of the source language, with the same result for any
    larger amount of fuel: fuel is no restriction in what follows. *)
Theorem C32_optimiser_terminates :
  forall es n, Forall (fun e => surface e = true) es ->
    exists f0 r, forall f, f0 <= f -> optimize_program f n es = Some r.
Proof.
  intros es n H. revert n. induction H as [|e es Sf _ IH]; intros n; [exists 0, ([], n); auto|].
  destruct (optimize_total n e Sf) as (f1 & [e1 n1] & E1). destruct (IH n1) as (f2 & [es2 n2] & E2).
  exists (f1 + f2), (e1 :: es2, n2). intros f L. unfold optimize_program in *. simpl. rewrite E1, E2 by lia. auto.
Qed.
Theorem C32_optimiser_result_unique :
  forall es n f g r r', optimize_program f n es = Some r -> optimize_program g n es = Some r' -> r = r'.
Proof.
  assert (M : forall es n f g r, f <= g -> optimize_program f n es = Some r -> optimize_program g n es = Some r).
  { intros es n f g r L. apply seq0_mono. intros. eapply optimize_le; eauto. }
  intros es n f g r r' E1 E2. apply (M _ _ f (f + g)) in E1; [|lia]. apply (M _ _ g (f + g)) in E2; [|lia]. congruence.
Qed.

(** ** Evaluation has one outcome *)
Theorem meaning_fun prim s es rs s1 : meaning prim s es rs s1 -> forall rs' s1', meaning prim s es rs' s1' -> rs' = rs /\ s1' = s1.
Proof.
  induction 1 as [s|s e es vs s1 rs s2 E M IH|s e es y s1 E]; intros rs' s1' H; inversion H; subst; auto;
    match goal with A : eval _ _ _ _ _ _ _, B : eval _ _ _ _ _ _ _ |- _ => destruct (eval_fun _ _ _ _ _ _ _ _ _ A B) as [Q1 Q2] end;
    try discriminate.
  - subst. injection Q1 as <-. match goal with A : meaning _ _ _ _ _ |- _ => destruct (IH _ _ A) as [-> ->] end. auto.
  - subst. injection Q1 as <-. auto.
Qed.

(** ** Optimised programs mean the same

    [s] is the store the program starts in.  [src]: identifiers do not clash with
    symbols still to be generated; bindings do not repeat identifiers; [values] is
    not rebound; an immediate call has arguments exactly when its procedure has
    parameters; the consumer of call-with-values is a lambda expression.
    [topok]: an expression outside of any procedure either does not assign global
    variables or calls no procedure expression.  [no_count]: no error is about a
    number of arguments or results. *)
Theorem C32_optimised_programs_partial :
  forall prim s es rs s1 f n es' n',
    allocates prim -> address_free prim -> ready s ->
    Forall (fun e => src n (List.length (heap_of s)) e = true /\ topok e = true) es ->
    optimize_program f n es = Some (es', n') ->
    meaning prim s es rs s1 -> no_count rs ->
    exists h rs' s1', meaning prim s es' rs' s1' /\
      same_outcome false h (List.length (heap_of s)) rs rs' s1 s1' /\
      forall rs2 s2, meaning prim s es' rs2 s2 -> rs2 = rs' /\ s2 = s1'.
Proof.
  intros prim s es rs s1 f n es' n' AL AF R F O M NC.
  assert (W : forallb (src n (List.length (heap_of s))) es = true) by (apply forallb_forall; rewrite Forall_forall in F; firstorder).
  assert (T : forallb topok es = true) by (apply forallb_forall; rewrite Forall_forall in F; firstorder).
  destruct (optimize_steps n _ f es n es' n' (Nat.le_refl n) W O) as (es0 & es1 & O0 & O1 & O2 & _).
  destruct (step_prog prim AL AF _ _ _ _ _ _ _ _ R M NC T O0) as (h0 & rs0 & t0 & M0 & S0).
  assert (T0 := opts_topok _ _ _ _ _ _ O0 T).
  destruct (steps_prog prim AL AF s es0 rs0 t0 es1 R O1 M0 (same_count _ _ _ _ _ _ _ S0) T0) as (T1 & h1 & rs1 & t1 & M1 & S1).
  destruct (step_prog prim AL AF _ _ _ _ _ _ _ _ R M1 (same_count _ _ _ _ _ _ _ S1) T1 O2) as (h2 & rs2 & t2 & M2 & S2).
  exists (comp (comp h0 h1) h2), rs2, t2. split; auto. split.
  - apply (same_trans false true _ _ _ _ _ _ _ _ _ (same_trans false true _ _ _ _ _ _ _ _ _ S0 S1) S2).
  - apply meaning_fun. auto.
Qed.

(** What is printed for results that are not objects is literally the same. *)
Definition atomic (v : val) : bool := match v with VPtr _ => false | _ => true end.
Theorem C32_atomic_results_partial :
  forall prim s es vss s1 f n es' n' rs' s1',
    allocates prim -> address_free prim -> ready s ->
    Forall (fun e => src n (List.length (heap_of s)) e = true /\ topok e = true) es ->
    optimize_program f n es = Some (es', n') ->
    meaning prim s es (map RVals vss) s1 -> forallb (forallb atomic) vss = true ->
    meaning prim s es' rs' s1' -> rs' = map RVals vss.
Proof.
  intros prim s es vss s1 f n es' n' rs' s1' AL AF R F O M A M'.
  destruct (C32_optimised_programs_partial prim s es _ s1 f n es' n' AL AF R F O M) as (h & rs2 & s2 & M2 & S & U).
  { clear. induction vss; constructor; auto. }
  destruct (U _ _ M') as [-> ->]. assert (Q := so_results _ _ _ _ _ _ _ S). clear -Q A.
  revert rs2 Q A. induction vss as [|vs vss IH]; intros rs2 Q A; inversion Q; subst; auto. simpl in A. apply andb_true_iff in A as [A1 A2].
  simpl. f_equal; auto. destruct y as [vs'|]; [|contradiction]. f_equal. clear -H1 A1. simpl in H1.
  induction H1; auto. simpl in A1. apply andb_true_iff in A1 as [A1 A2]. f_equal; auto. destruct x; simpl in *; try discriminate; auto. destruct H; discriminate.
Qed.

(** ** Through to the machine (C31) *)
Record booted (n : nat) (s : store) : Prop := Booted {
  bt_heap : heap_of s = repeat (COther 0) n;
  bt_glob : forall x v, glob_ref x (glob_of s) = Some v -> exists l, v = VPtr l /\ l < n;
  bt_procs : forall l p, proc_ref l (procs_of s) = Some p -> l < n /\ forall cls r, p <> PClo cls r;
  bt_cells : cells_of s = [] }.
Definition system (sys : list (ident * sproc)) : Prop :=
  Forall (fun b => match snd b with PClo _ _ => False | _ => True end) sys /\ NoDup (map fst sys) /\ In (Id "values", PValues) sys.
Lemma glob_ref_set' x y v g : glob_ref y (glob_set x v g) = if ident_eqb x y then Some v else glob_ref y g.
Proof.
  induction g as [|[z w] g IH]; simpl; [destruct (ident_eqb x y); auto|].
  destruct (ident_eqb_spec z x) as [->|D]; simpl; [destruct (ident_eqb x y); auto|].
  rewrite IH. destruct (ident_eqb_spec z y), (ident_eqb_spec x y); auto. congruence.
Qed.
Lemma boot_ready sys : system sys -> ready (boot_store sys no_store).
Proof.
  intros (C & ND & V).
  assert (G : forall sys s n, Forall (fun b : ident * sproc => match snd b with PClo _ _ => False | _ => True end) sys -> NoDup (map fst sys) -> booted n s ->
     booted (n + List.length sys) (boot_store sys s) /\
     (In (values_id, PValues) sys \/ (~ In values_id (map fst sys) /\ exists l, glob_ref values_id (glob_of s) = Some (VPtr l) /\ proc_ref l (procs_of s) = Some PValues) ->
      exists l, glob_ref values_id (glob_of (boot_store sys s)) = Some (VPtr l) /\ proc_ref l (procs_of (boot_store sys s)) = Some PValues)).
  { clear. induction sys as [|[x p] sys IH]; intros s n C ND B.
    - simpl. rewrite Nat.add_0_r. split; auto. intros [[]|[_ H]]; auto.
    - inversion C; subst. inversion ND; subst. simpl in *.
      assert (HL : List.length (heap_of s) = n) by (rewrite (bt_heap _ _ B); apply repeat_length).
      destruct (IH (set_glob x (VPtr (List.length (heap_of s))) (Store (heap_of s ++ [COther 0]) ((List.length (heap_of s), p) :: procs_of s) (cells_of s) (glob_of s))) (S n)) as [B2 V2]; auto.
      + constructor; unfold set_glob; cbn [heap_of procs_of cells_of glob_of].
        * rewrite (bt_heap _ _ B). change [COther 0] with (repeat (COther 0) 1). rewrite <- repeat_app. f_equal. lia.
        * intros y v. rewrite glob_ref_set'. destruct (ident_eqb x y); [intros E; injection E as <-; eexists; split; eauto; lia|].
          intros E. destruct (bt_glob _ _ B _ _ E) as (l & -> & L). exists l. split; auto.
        * intros l q. cbn [proc_ref]. destruct (Nat.eqb_spec (List.length (heap_of s)) l) as [<-|D].
          -- intros E. injection E as <-. split; [lia|]. intros cls r ->. auto.
          -- intros E. destruct (bt_procs _ _ B _ _ E). split; auto.
        * apply B.
      + replace (n + S (List.length sys)) with (S n + List.length sys) by lia. split; auto. intros H. apply V2.
        destruct H as [[E|I]|[NI [l [G1 G2]]]].
        * injection E as -> ->. right. split; auto. exists (List.length (heap_of s)). cbn. rewrite glob_ref_set', ident_eqb_refl, Nat.eqb_refl. auto.
        * left. auto.
        * right. split; [tauto|]. exists l. cbn. rewrite glob_ref_set'. destruct (ident_eqb_spec x values_id); [tauto|]. split; auto.
          destruct (Nat.eqb_spec (List.length (heap_of s)) l); auto. destruct (bt_procs _ _ B _ _ G2). lia. }
  destruct (G sys no_store 0 C ND) as [B H]; [constructor; simpl; auto; discriminate|].
  assert (HL : List.length (heap_of (boot_store sys no_store)) = 0 + List.length sys) by (rewrite (bt_heap _ _ B); apply repeat_length).
  constructor; rewrite ?HL.
  - rewrite (bt_heap _ _ B). apply Forall_forall. intros c I. apply repeat_spec in I. subst. exact I.
  - intros x v E. destruct (bt_glob _ _ B _ _ E) as (l & -> & L). auto.
  - apply B.
  - apply B.
  - apply H. auto.
Qed.

(** The machine, given the optimised program, does what the original program
    means: the same results, and the same objects in the heap and in the global
    variables, up to addresses. *)
Theorem C32_optimised_execution_partial :
  forall prim sys d0 es rs s1 f n es' n' stk vc vals,
    let s := boot_store sys no_store in
    allocates prim -> address_free prim -> system sys -> boot_data sys no_data = Some d0 ->
    Forall (fun e => src n (List.length (heap_of s)) e = true /\ topok e = true) es ->
    optimize_program f n es = Some (es', n') -> Forall (fun e => wf false true e = true) es' ->
    meaning prim s es rs s1 -> no_count rs ->
    exists h rs' d', execution prim (Thread stk vc vals d0) es' rs' d' /\
      injective h /\ Forall2 (rrel false h) rs rs' /\ hrel false h (heap_of s1) (d_heap d') /\
      (forall x, vrel true h (global_value (glob_of s1) x) (global_value (d_glob d') x)) /\
      forall rs2 d2, execution prim (Thread stk vc vals d0) es' rs2 d2 -> rs2 = rs' /\ d2 = d'.
Proof.
  intros prim sys d0 es rs s1 f n es' n' stk vc vals s AL AF SY B F O W M NC.
  destruct (C32_optimised_programs_partial prim s es rs s1 f n es' n' AL AF (boot_ready _ SY) F O M NC) as (h & rs' & t & M' & SO & _).
  assert (C : Forall (fun e => compilable e = true) es').
  { eapply (optimize_compilable n _ f es n es' n' (Nat.le_refl n)); [|exact O]. apply forallb_forall. intros e I. rewrite Forall_forall in F. apply F in I. apply I. }
  destruct (C31_programs_partial prim sys d0 es' rs' t stk vc vals B) as (d' & X & H & G); auto.
  { rewrite Forall_forall in *. auto. }
  exists h, rs', d'. split; auto. split; [apply SO|]. split; [apply SO|]. split; [rewrite H; apply SO|]. split.
  - intros x. rewrite G. assert (Q := so_glob _ _ _ _ _ _ _ SO x). unfold global_value.
    destruct (glob_ref x (glob_of s1)) as [w|], (glob_ref x (glob_of t)) as [w'|]; simpl in Q; try contradiction; simpl; auto.
    destruct w; simpl in *; auto. destruct Q; discriminate.
  - intros rs2 d2 X2. destruct (execution_fun _ _ _ _ _ X2 _ _ X). auto.
Qed.

(** ** A program that meets the conditions *)

(** Primitives: addition, cons and car. *)
Definition o_prim : N -> list val -> heap -> option presult :=
  fun p vs h =>
    match p, vs with
    | 0%N, [VFix a; VFix b] => Some (PrimVal (VFix (a + b)) h)
    | 0%N, v :: _ => Some (PrimErr (EArg "add" v) h)
    | 1%N, [a; b] => Some (PrimVal (VPtr (List.length h)) (h ++ [CPair a b]))
    | 2%N, [v] => match pair_at h v with Some (a, _) => Some (PrimVal a h) | None => Some (PrimErr (EArg "car" v) h) end
    | _, _ => None
    end.
Example o_prim_allocates : allocates o_prim.
Proof.
  intros p vs a q. unfold o_prim.
  destruct p as [|[[]|[]|]]; destruct vs as [|v [|w [|]]]; intros E; try discriminate;
    repeat match goal with H : context [match ?x with _ => _ end] |- _ => destruct x; try discriminate end;
    injection E as <-; simpl; rewrite ?app_length; lia.
Qed.
Example o_prim_address_free : address_free o_prim.
Proof.
  intros u h a b p vs vs' q IN HR VR Q.
  assert (KEEP : forall q', presult_heap q = a -> presult_heap q' = b -> o_prim p vs' b = Some q' -> prel_result u h q q' ->
    exists q' h', o_prim p vs' b = Some q' /\ prel_result u h' q q' /\ hrel u h' (presult_heap q) (presult_heap q') /\ injective h' /\ extends h h' /\
      (forall l l', h' l = Some l' -> h l = Some l' \/ (List.length a <= l /\ List.length b <= l'))).
  { intros q' A B P RR. exists q', h. rewrite A, B. split; auto. split; auto. split; auto. split; auto. split; [apply extends_refl|auto]. }
  destruct p as [|p].
  - assert (ARG : forall v v' r r', q = PrimErr (EArg "add" v) a -> vs' = v' :: r' -> vrel u h v v' -> o_prim 0 vs' b = Some (PrimErr (EArg "add" v') b) -> vs = v :: r -> exists q' h', o_prim 0 vs' b = Some q' /\ prel_result u h' q q' /\ hrel u h' (presult_heap q) (presult_heap q') /\ injective h' /\ extends h h' /\
      (forall l l', h' l = Some l' -> h l = Some l' \/ (List.length a <= l /\ List.length b <= l'))).
    { intros v v' r r' -> -> V P _. apply (KEEP (PrimErr (EArg "add" v') b)); simpl; auto. }
    inversion VR as [|v v' r r' V1 V2]; subst; [discriminate|].
    assert (DEC : (exists x y, v = VFix x /\ r = [VFix y]) \/ (q = PrimErr (EArg "add" v) a /\ forall x y, v = VFix x -> r <> [VFix y])).
    { simpl in Q. destruct v; try (right; split; [congruence|intros; discriminate]).
      destruct r as [|[]  [|]]; try (right; split; [congruence|intros; discriminate]). left. eauto. }
    destruct DEC as [(x & y & -> & ->)|[-> D]].
    + inversion V2 as [|? w ? ? V3 V4]; subst. inversion V4; subst. simpl in V1, V3. subst. simpl in Q. injection Q as <-.
      apply (KEEP (PrimVal (VFix (x + y)) b)); simpl; auto.
    + eapply ARG; eauto. simpl. destruct v'; auto. destruct r' as [|w [|]]; auto; [destruct w; auto|destruct w; auto].
      destruct v; simpl in V1; try discriminate; try (destruct V1; discriminate); try (destruct (h l); [discriminate|contradiction]). injection V1 as ->.
      inversion V2 as [|w ? ? ? V3 V4]; subst. inversion V4; subst.
      destruct w; simpl in V3; try discriminate; try (destruct V3; discriminate); try (destruct (h l); [discriminate|contradiction]).
  - destruct p as [p|[p|p|]|]; try discriminate.
    + destruct vs as [|v [|]]; try discriminate. inversion VR as [|? v' ? ? V1 V2]; subst. inversion V2; subst. clear VR V2.
      simpl in Q. destruct (pair_at a v) as [[x y]|] eqn:P.
      * injection Q as <-. destruct v; try discriminate. simpl in V1. destruct (h l) as [l'|] eqn:HL; [|contradiction]. subst v'.
        destruct (HR _ _ HL) as (c & c' & N1 & N2 & C). simpl in P. rewrite N1 in P. destruct c; try discriminate. injection P as -> ->.
        destruct c'; simpl in C; try contradiction. destruct C as [C1 C2]. apply (KEEP (PrimVal a0 b)); simpl; auto. rewrite N2. auto.
      * injection Q as <-. apply (KEEP (PrimErr (EArg "car" v') b)); simpl; auto.
        assert (pair_at b v' = None) as ->; auto. destruct v; simpl in V1; try (subst v'; auto; fail); [destruct V1; subst; auto|].
        destruct (h l) as [l'|] eqn:HL; [|contradiction]. subst v'. destruct (HR _ _ HL) as (c & c' & N1 & N2 & C). simpl in *. rewrite N1 in P. rewrite N2.
        destruct c, c'; simpl in C; try contradiction; auto. discriminate.
    + destruct vs as [|v [|w [|]]]; try discriminate. inversion VR as [|? v' ? ? V1 V2]; subst. inversion V2 as [|? w' ? ? V3 V4]; subst. inversion V4; subst.
      simpl in Q. injection Q as <-.
      assert (DOM : forall l l', h l = Some l' -> l < List.length a /\ l' < List.length b).
      { intros l l' E. destruct (HR _ _ E) as (c & c' & N1 & N2 & _). split; eapply nth_error_Some; congruence. }
      set (h' := fun l => if l =? List.length a then Some (List.length b) else h l).
      assert (EX : extends h h'). { intros l l' E. unfold h'. destruct (Nat.eqb_spec l (List.length a)); auto. subst. apply DOM in E. lia. }
      exists (PrimVal (VPtr (List.length b)) (b ++ [CPair v' w'])), h'. split; auto. simpl. split; [unfold h'; rewrite Nat.eqb_refl; auto|]. split; [|split; [|split; auto]].
      * intros l l' E. unfold h' in E. destruct (Nat.eqb_spec l (List.length a)) as [->|D].
        -- injection E as <-. exists (CPair v w), (CPair v' w'). rewrite !nth_error_app2, !Nat.sub_diag by lia. simpl. repeat split; eapply vrel_mono; eauto.
        -- destruct (HR _ _ E) as (c & c' & N1 & N2 & C). destruct (DOM _ _ E). exists c, c'. rewrite !nth_error_app1 by lia. split; auto. split; auto. eapply crel_mono; eauto.
      * intros l1 l2 l'. unfold h'. destruct (Nat.eqb_spec l1 (List.length a)), (Nat.eqb_spec l2 (List.length a)); intros E1 E2; subst; auto; try (injection E1 as <-); try (injection E2 as <-); try (apply DOM in E1; lia); try (apply DOM in E2; lia). eapply IN; eauto.
      * intros l l' E. unfold h' in E. destruct (Nat.eqb_spec l (List.length a)); auto. injection E as <-. right. lia.
Qed.

Definition lam (xs : list ident) (b : list expr) : expr := ELam (Formals xs None) b.
Definition num (n : Z) : expr := EConst (VFix n).
Definition o_sys : list (ident * sproc) :=
  [(Id "add", PPrim 0 2); (Id "cons", PPrim 1 2); (Id "car", PPrim 2 1); (values_id, PValues)].
Definition o_store : store := boot_store o_sys no_store.
(** (define-values (f g) (letrec-values ([(x) (lambda (a) (if a (y (car a)) a))] [(y) (lambda (b) (x b))]) (values x y)))
    (call-with-values (lambda () (let-values ([(a) 1] [(b) (add 2 3)]) (values a b))) (lambda (x y) (add x y)))
    (let-values ([(x y) (values 1 2)] [(z) (cons 3 4)]) (set! x (car z)) (cons x (cons y z)))
    (f (cons #f 1))
    ((lambda (a b) (cons b a)) 1 2)
    (car 7) *)
Definition o_program : list expr :=
  [EDefine [idf; Id "g"] (ELetrec [([idx], lam [ida] [EIf (EVar ida) (EApp (EVar idy) [EApp (EVar (Id "car")) [EVar ida]]) (EVar ida)]);
                                   ([idy], lam [idb] [EApp (EVar idx) [EVar idb]])] [EValues [EVar idx; EVar idy]]);
   ECwv (lam [] [ELet [([ida], num 1); ([idb], EApp (EVar (Id "add")) [num 2; num 3])] [EValues [EVar ida; EVar idb]]])
        (lam [idx; idy] [EApp (EVar (Id "add")) [EVar idx; EVar idy]]);
   ELet [([idx; idy], EValues [num 1; num 2]); ([idz], EApp (EVar (Id "cons")) [num 3; num 4])]
     [ESet idx (EApp (EVar (Id "car")) [EVar idz]); EApp (EVar (Id "cons")) [EVar idx; EApp (EVar (Id "cons")) [EVar idy; EVar idz]]];
   EApp (EVar idf) [EApp (EVar (Id "cons")) [EConst VFalse; num 1]];
   EApp (lam [ida; idb] [EApp (EVar (Id "cons")) [EVar idb; EVar ida]]) [num 1; num 2];
   EApp (EVar (Id "car")) [num 7]].
Example C32_program_conditions :
  system o_sys /\ Forall (fun e => src 0 (List.length (heap_of o_store)) e = true /\ topok e = true) o_program /\
  Forall (fun e => surface e = true) o_program.
Proof.
  split; [|split; repeat constructor].
  split; [repeat constructor|]. split; [repeat constructor; simpl; intuition discriminate|]. simpl. tauto.
Qed.
Example C32_program_optimised :
  exists es' n', optimize_program 100 0 o_program = Some (es', n') /\ Forall (fun e => wf false true e = true) es' /\ es' <> o_program.
Proof. eexists. eexists. split; [vm_compute; reflexivity|]. split; [repeat constructor|discriminate]. Qed.
Example C32_program_means :
  exists rs s1, meaning o_prim o_store o_program rs s1 /\ no_count rs /\
    nth_error rs 1 = Some (RVals [VFix 6]) /\ nth_error rs 3 = Some (RVals [VFalse]) /\ nth_error rs 5 = Some (RErr (ErrPrim (EArg "car" (VFix 7)))).
Proof.
  eexists. eexists. split; [eapply (run_prog_ok o_prim 100); vm_compute; reflexivity|].
  split; [repeat constructor|]. split; [reflexivity|]. split; reflexivity.
Qed.

(** ** The conditions cannot be dropped: programs that optimisation changes *)
Definition v_sys : list (ident * sproc) := [(values_id, PValues)].
Definition v_store : store := boot_store v_sys no_store.
Example v_store_ready : ready v_store.
Proof. apply boot_ready. split; [repeat constructor|]. split; [repeat constructor; simpl; tauto|]. simpl. auto. Qed.
(** [es] means [rs], its optimised form means [rs'], for any fuel. *)
Definition changes (es : list expr) (rs rs' : list res) : Prop :=
  (exists s1, meaning no_prim v_store es rs s1) /\
  forall f es' n', optimize_program f 0 es = Some (es', n') -> exists s1', meaning no_prim v_store es' rs' s1'.
Lemma changes_intro f es es' n' rs rs' s1 s1' :
  optimize_program f 0 es = Some (es', n') -> run_prog no_prim 100 v_store es = Some (rs, s1) -> run_prog no_prim 100 v_store es' = Some (rs', s1') ->
  changes es rs rs'.
Proof.
  intros O R R'. split; [exists s1; eapply run_prog_ok; eauto|]. intros g es2 n2 O2.
  assert (Q := C32_optimiser_result_unique _ _ _ _ _ _ O O2). injection Q as <- <-. exists s1'. eapply run_prog_ok; eauto.
Qed.
Ltac change_by := eapply (changes_intro 100); vm_compute; reflexivity.

(** ((lambda (x) 5)) *)
Theorem C32_missing_argument_refuted :
  changes [EApp (lam [idx] [num 5]) []] [RErr (ErrArity (VPtr 1) 0)] [RVals [VFix 5]].
Proof. change_by. Qed.
(** ((lambda (x y) x) (values 1 2)) *)
Theorem C32_values_as_arguments_refuted :
  changes [EApp (lam [idx; idy] [EVar idx]) [EValues [num 1; num 2]]] [RErr (ErrResults 1 2)] [RVals [VFix 1]].
Proof. change_by. Qed.
(** (call-with-values (lambda () ((lambda () 1) (3))) (lambda (y) y)) *)
Theorem C32_dropped_argument_refuted :
  changes [ECwv (lam [] [EApp (lam [] [num 1]) [EApp (num 3) []]]) (lam [idy] [EVar idy])] [RErr (ErrNotProc (VFix 3))] [RVals [VFix 1]].
Proof. change_by. Qed.
(** (define f (lambda (x) 1))
    (call-with-values (lambda () (set! f (lambda (x) 2)) 5) f): the consumer is
    evaluated after the producer has run. *)
Theorem C32_consumer_order_refuted :
  changes [EDefine [idf] (lam [idx] [num 1]); ECwv (lam [] [ESet idf (lam [idx] [num 2]); num 5]) (EVar idf)]
    [RVals [VVoid]; RVals [VFix 1]] [RVals [VVoid]; RVals [VFix 2]].
Proof. change_by. Qed.
(** ((lambda (values) ((lambda (x y) x) 1 2)) 3): an immediate call uses whatever
    the variable values is bound to. *)
Theorem C32_rebound_values_refuted :
  changes [EApp (lam [values_id] [EApp (lam [idx; idy] [EVar idx]) [num 1; num 2]]) [num 3]] [RVals [VFix 1]] [RErr (ErrNotProc (VFix 3))].
Proof. change_by. Qed.
(** (define x 1) ((lambda () (set! x 5))): the value of the assignment. *)
Theorem C32_assignment_value_refuted :
  changes [EDefine [idx] (num 1); EApp (lam [] [ESet idx (num 5)]) []] [RVals [VVoid]; RVals [VVoid]] [RVals [VVoid]; RVals [VFix 5]].
Proof. change_by. Qed.
(** (values (values 1 2)) *)
Theorem C32_nested_values_refuted :
  changes [EValues [EValues [num 1; num 2]]] [RErr (ErrResults 1 2)] [RVals [VFix 1; VFix 2]].
Proof. change_by. Qed.
(** (define f (lambda () 1)) (call-with-values (lambda () (f)) (lambda (x . y) x)):
    a binding form with a rest parameter, which cannot be compiled. *)
Definition rest_program : list expr :=
  [EDefine [idf] (lam [] [num 1]); ECwv (lam [] [EApp (EVar idf) []]) (ELam (Formals [idx] (Some idy)) [EVar idx])].
Theorem C32_rest_consumer_refuted :
  (exists s1, meaning no_prim v_store rest_program [RVals [VVoid]; RVals [VFix 1]] s1) /\
  forall f es' n', optimize_program f 0 rest_program = Some (es', n') ->
    forallb compilable es' = false /\ forall rs s1, ~ meaning no_prim v_store es' rs s1.
Proof.
  split; [eexists; eapply (run_prog_ok no_prim 100); vm_compute; reflexivity|]. intros f es' n' O.
  assert (O2 : optimize_program 100 0 rest_program =
     Some ([EDefine [idf] (lam [] [num 1]); EMvLet (EApp (EVar idf) []) (Formals [idx] (Some idy)) (EVar idx)], 0)) by (vm_compute; reflexivity).
  assert (Q := C32_optimiser_result_unique _ _ _ _ _ _ O O2). injection Q as -> ->. split; [reflexivity|].
  intros rs s1 M. inversion M; subst.
  - match goal with H : meaning _ _ [_] _ _ |- _ => inversion H; subst end; match goal with H : eval _ _ _ _ (EMvLet _ _ _) _ _ |- _ => inversion H end.
  - match goal with H : eval _ _ _ _ _ _ _ |- _ => inversion H; subst end; match goal with H : eval _ _ _ _ (lam _ _) _ _ |- _ => inversion H; subst end; simpl in *; congruence.
Qed.

Print Assumptions C32_optimiser_terminates.
Print Assumptions C32_optimiser_result_unique.
Print Assumptions C32_optimised_programs_partial.
Print Assumptions C32_atomic_results_partial.
Print Assumptions C32_optimised_execution_partial.
Print Assumptions C32_missing_argument_refuted.
Print Assumptions C32_values_as_arguments_refuted.
Print Assumptions C32_dropped_argument_refuted.
Print Assumptions C32_consumer_order_refuted.
Print Assumptions C32_rebound_values_refuted.
Print Assumptions C32_assignment_value_refuted.
Print Assumptions C32_nested_values_refuted.
Print Assumptions C32_rest_consumer_refuted.
